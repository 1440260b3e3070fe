(** C146, the loss of a connection: from every reachable state. *)
From Coq Require Import ZArith List Bool Arith Lia.
Import ListNotations.
From Verif Require ClientModel ClientSpec ClientProofs HolderModel HolderSpec HolderProofs HolderProps HolderPolite.
From Verif Require Import FleetModel FleetSpec FleetClient FleetNotes FleetHolder FleetProofs FleetInv FleetProps.

Lemma run_app : forall a s b, run s (a ++ b) = bind (run s a) (fun s => run s b).
Proof.
  induction a as [|e a IH]; intros s b; cbn [app run]; [cbn [bind]; now destruct (run s b)|].
  destruct (step s e) as [o [s1|]]; cbn [bind]; [|reflexivity]. rewrite IH. destruct (run s1 a) as [o1 [s2|]]; cbn [bind]; [|reflexivity].
  destruct (run s2 b) as [o2 s3]. now rewrite app_assoc.
Qed.
(** what is kept on the way *)
Record ST (i : nat) (n : Z) (t : list obs) (s : st) : Prop := {
  t_inv : INV n t s;
  t_pol : HolderSpec.polite (at_conn i t);
  t_tim : HolderSpec.timely (at_conn i t);
  t_sp : ClientModel.sp (ep s) = ClientModel.SIdle;
  t_ex : ClientModel.exiting (ep s) = false;
  t_cl : ClientModel.cl (lp s i) = ClientModel.LOk }.
Definition goes (i : nat) (n : Z) (t : list obs) (s : st) (t' : list obs) (s' : st) : Prop :=
  ST i n t' s' /\ exists es o, Forall (losing i) es /\ run s es = (o, Some s') /\ t' = t ++ o.
Lemma goes_refl i n t s : ST i n t s -> goes i n t s t s.
Proof. intro H. split; [exact H|]. exists [], []. cbn. rewrite app_nil_r. auto. Qed.
Lemma goes_trans i n t s t1 s1 t2 s2 : goes i n t s t1 s1 -> goes i n t1 s1 t2 s2 -> goes i n t s t2 s2.
Proof.
  intros (_ & es & o & F & R & ->) (H & es' & o' & F' & R' & ->). split; [exact H|]. exists (es ++ es'), (o ++ o'). rewrite Forall_app, run_app, R. cbn [bind]. rewrite R', app_assoc. auto.
Qed.
Lemma step_goes i n t s e o s' : ST i n t s -> losing i e -> step s e = (o, Some s') -> HolderSpec.polite (at_conn i (t ++ o)) -> HolderSpec.timely (at_conn i (t ++ o)) ->
  ClientModel.sp (ep s') = ClientModel.sp (ep s) -> ClientModel.exiting (ep s') = ClientModel.exiting (ep s) -> ClientModel.cl (lp s' i) = ClientModel.cl (lp s i) -> goes i n t s (t ++ o) s'.
Proof.
  intros [] L S P T A B C. split; [constructor; try congruence; auto; eapply step_INV; eauto|]. exists [e], o. split; [auto|]. cbn [run]. rewrite S. cbn [bind]. now rewrite app_nil_r.
Qed.
(** a step of the loops alone *)
Lemma loop_goes i n t s e p : ST i n t s -> losing i e -> step s e = ([], Some (w_ep s p)) ->
  ClientModel.sp p = ClientModel.sp (ep s) -> ClientModel.exiting p = ClientModel.exiting (ep s) -> ClientModel.cl (ClientModel.cn p i) = ClientModel.cl (lp s i) -> goes i n t s t (w_ep s p).
Proof.
  intros H L S A B C. rewrite <- (app_nil_r t) at 2. apply step_goes with (e := e); auto; rewrite app_nil_r; apply H.
Qed.
Lemma upd_same {A} (f : nat -> A) k v : ClientModel.upd f k v k = v. Proof. unfold ClientModel.upd. now rewrite Nat.eqb_refl. Qed.
Ltac cf := unfold lp in *; cbn [ep tab queue hand sent fin w_ep w_tab w_tabs w_queue w_hand w_sent w_fin ClientModel.cn ClientModel.sp ClientModel.exiting ClientModel.ch ClientModel.w_cn ClientModel.w_ch
  ClientModel.c_cs ClientModel.c_cl ClientModel.c_cw ClientModel.c_cr ClientModel.c_ck ClientModel.c_notes ClientModel.cs ClientModel.cl ClientModel.cw ClientModel.cr ClientModel.ck ClientModel.notes ClientModel.stopped] in *; rewrite ?upd_same in *;
  cbn [ClientModel.c_cs ClientModel.c_cl ClientModel.c_cw ClientModel.c_cr ClientModel.c_ck ClientModel.c_notes ClientModel.cs ClientModel.cl ClientModel.cw ClientModel.cr ClientModel.ck ClientModel.notes ClientModel.stopped] in *.
Lemma short_notes (l : list ClientModel.note) x : NoDup l -> ~ In x l -> (length l < 2)%nat.
Proof.
  intros N H. destruct l as [|a [|b l]]; cbn; try lia. exfalso. inversion N as [|? ? N1 _]; subst. destruct a, b, x; cbn in *; intuition congruence.
Qed.
Lemma ST_v3 i n t s : ST i n t s -> ClientProofs.valid3 (lp s i). Proof. intros [(P & _) _ _ _ _ _]. exact (creach_valid _ _ _ (v_ep _ _ _ P) i). Qed.
Lemma ST_v4 i n t s : ST i n t s -> valid4 (lp s i). Proof. intros [(P & _) _ _ _ _ _]. exact (creach_valid4 _ _ _ (v_ep _ _ _ P) i). Qed.

(** ** The reader *)
Lemma deliver_goes i n t s : ST i n t s -> exists t' s', goes i n t s t' s' /\ HolderModel.reader (tab s' i) = None /\ ep s' = ep s.
Proof.
  intro H. destruct (step s (Deliver i)) as [o os] eqn:S. pose proof S as S0. cbn [step] in S. unfold on in S.
  assert (D : exists o1 c, HolderModel.step (tab s i) HolderModel.Deliver = (o1, Some c) /\ still o1 /\ HolderModel.reader c = None).
  { cbn [HolderModel.step]. destruct (HolderModel.reader (tab s i)) as [[[[r|] code] body]|] eqn:R.
    - cbn [HolderModel.rs]. destruct (HolderModel.rs (tab s i) r) eqn:Q; (eexists _, _; split; [reflexivity|]); split.
      + intros x [].
      + reflexivity.
      + intros x [<-|[]]. exact Logic.I.
      + unfold HolderModel.complete. cbn [HolderModel.rs]. rewrite Q. reflexivity.
      + intros x [].
      + reflexivity.
    - eexists _, _. split; [reflexivity|]. split; [intros x []|reflexivity].
    - eexists _, _. split; [reflexivity|]. split; [intros x []|exact R]. }
  destruct D as (o1 & c & D & ST1 & R). rewrite D in S. injection S as <- <-. destruct (still_polite _ _ ST1 (t_pol _ _ _ _ H) (t_tim _ _ _ _ H)) as [P T].
  eexists _, _. split; [eapply step_goes; [exact H| |exact S0|..]; try reflexivity; rewrite ?app_at, ?seen_at, ?Nat.eqb_refl; assumption|].
  cbn. rewrite Nat.eqb_refl. now split.
Qed.
Lemma read_goes i n t s : ST i n t s -> exists t' s', goes i n t s t' s' /\ ClientModel.cr (lp s' i) = ClientModel.REnd /\ ClientModel.cw (lp s' i) = ClientModel.cw (lp s i).
Proof.
  intro H0. destruct (deliver_goes _ _ _ _ H0) as (t1 & s1 & G1 & RN & EP). pose proof (proj1 G1) as H. replace (lp s i) with (lp s1 i) by (unfold lp; now rewrite EP). clear EP.
  assert (X : forall t2 s2, ST i n t2 s2 -> ClientModel.cr (lp s2 i) = ClientModel.RNote -> exists t' s', goes i n t2 s2 t' s' /\ ClientModel.cr (lp s' i) = ClientModel.REnd /\ ClientModel.cw (lp s' i) = ClientModel.cw (lp s2 i)).
  { clear. intros t s H C. eexists _, _. split; [eapply loop_goes with (e := Ep (ClientModel.R i)); [exact H|reflexivity| |..]|].
    - cbn [step shared]. unfold turn. cbn [ClientModel.step]. unfold lp in C. rewrite C. unfold ClientModel.tell. assert (L : (length (ClientModel.notes (ClientModel.c_cr (ClientModel.cn (ep s) i) ClientModel.REnd)) <? 2)%nat = true).
      { apply Nat.ltb_lt. cbn. apply (short_notes _ ClientModel.NRead); [apply (ST_v4 _ _ _ _ H)|]. intro Q. apply (ClientProofs.v_nr _ (ST_v3 _ _ _ _ H)) in Q. unfold lp in Q. congruence. }
      rewrite L. reflexivity.
    - reflexivity.
    - reflexivity.
    - now cf.
    - now cf. }
  destruct (ClientModel.cr (lp s1 i)) eqn:C.
  - exfalso. destruct (n_up _ (ST_v4 _ _ _ _ H) (t_cl _ _ _ _ H)) as (_ & Q & _). congruence.
  - assert (Y : exists t' s', goes i n t1 s1 t' s' /\ ClientModel.cr (lp s' i) = ClientModel.RNote /\ ClientModel.cw (lp s' i) = ClientModel.cw (lp s1 i)).
    { eexists _, _. split; [eapply loop_goes with (e := Ep (ClientModel.RFail i)); [exact H|reflexivity| |..]|].
      - cbn [step shared]. rewrite RN. unfold turn. cbn [ClientModel.step]. unfold lp in C. rewrite C. reflexivity.
      - reflexivity.
      - reflexivity.
      - now cf.
      - now cf. }
    destruct Y as (t2 & s2 & G2 & C2 & W2). destruct (X _ _ (proj1 G2) C2) as (t3 & s3 & G3 & C3 & W3). exists t3, s3. split; [eapply goes_trans; [exact G1|eapply goes_trans; eauto]|]. split; [exact C3|congruence].
  - destruct (X _ _ H C) as (t3 & s3 & G3 & C3 & W3). exists t3, s3. split; [eapply goes_trans; eauto|]. split; [exact C3|congruence].
  - exists t1, s1. auto.
Qed.

(** ** The writer *)
Definition wends (c : ClientModel.conn) : Prop := ClientModel.cw c = ClientModel.WNote \/ ClientSpec.wdone c.
(** from the top of its loop, or with a ping *)
Lemma ping_goes i n t s : ST i n t s -> hand s i = None -> ClientModel.cw (lp s i) = ClientModel.WReq -> exists t' s', goes i n t s t' s' /\ wends (lp s' i).
Proof.
  intros H HD C. eexists _, _. split; [eapply loop_goes with (e := Write i false); [exact H|reflexivity| |..]|].
  - cbn [step]. unfold lp in C. rewrite C, HD. unfold turn. cbn [ClientModel.step]. rewrite C. reflexivity.
  - reflexivity.
  - reflexivity.
  - now cf.
  - left. now cf.
Qed.
Lemma sel2_goes i n t s : ST i n t s -> hand s i = None -> ClientModel.cw (lp s i) = ClientModel.WSel2 -> exists t' s', goes i n t s t' s' /\ wends (lp s' i).
Proof.
  intros H HD C. eassert (G : goes i n t s t _).
  { eapply loop_goes with (e := Ping i); [exact H|reflexivity| |..].
    - cbn [step]. unfold lp in C. rewrite C. unfold turn. cbn [ClientModel.step]. rewrite C. reflexivity.
    - reflexivity.
    - reflexivity.
    - now cf. }
  destruct (ping_goes _ _ _ _ (proj1 G)) as (t2 & s2 & G2 & W); [exact HD|now cf|]. exists t2, s2. split; [eapply goes_trans; eauto|exact W].
Qed.
Lemma sel1_goes i n t s : ST i n t s -> hand s i = None -> ClientModel.cw (lp s i) = ClientModel.WSel1 -> exists t' s', goes i n t s t' s' /\ wends (lp s' i).
Proof.
  intros H HD C. eassert (G : goes i n t s t _).
  { eapply loop_goes with (e := Ep (ClientModel.W i)); [exact H|reflexivity| |..].
    - cbn [step shared]. unfold lp in C. rewrite C. unfold turn. cbn [ClientModel.step]. unfold ClientModel.step_w. rewrite C. reflexivity.
    - reflexivity.
    - reflexivity.
    - now cf. }
  destruct (sel2_goes _ _ _ _ (proj1 G)) as (t2 & s2 & G2 & W); [exact HD|now cf|]. exists t2, s2. split; [eapply goes_trans; eauto|exact W].
Qed.
Lemma top_goes i n t s : ST i n t s -> hand s i = None -> ClientModel.cw (lp s i) = ClientModel.WTop -> exists t' s', goes i n t s t' s' /\ wends (lp s' i).
Proof.
  intros H HD C. destruct (ClientModel.stopped (lp s i)) eqn:SP.
  - eexists _, _. split; [eapply step_goes with (e := Ep (ClientModel.W i)) (o := []); [exact H|reflexivity| |..]|].
    + cbn [step shared]. unfold lp in C, SP. rewrite C, SP. unfold on. cbn [HolderModel.step]. cbn [bind map]. unfold turn. cbn [ep w_tab w_fin ClientModel.step]. unfold ClientModel.step_w. rewrite C, SP. cbn [bind map ClientModel.ok app]. reflexivity.
    + rewrite app_nil_r. apply H.
    + rewrite app_nil_r. apply H.
    + reflexivity.
    + reflexivity.
    + now cf.
    + left. now cf.
  - eassert (G : goes i n t s t _).
    { eapply loop_goes with (e := Ep (ClientModel.W i)); [exact H|reflexivity| |..].
      - cbn [step shared]. unfold lp in C, SP. rewrite C, SP. unfold turn. cbn [ClientModel.step]. unfold ClientModel.step_w. rewrite C, SP. reflexivity.
      - reflexivity.
      - reflexivity.
      - now cf. }
    destruct (sel1_goes _ _ _ _ (proj1 G)) as (t2 & s2 & G2 & W); [exact HD|now cf|]. exists t2, s2. split; [eapply goes_trans; eauto|exact W].
Qed.
(** with a request in hand *)
Lemma hand_goes i n t s r : ST i n t s -> may_write i t -> hand s i = Some r -> exists t' s', goes i n t s t' s' /\ (wends (lp s' i) \/ (hand s' i = None /\ ClientModel.cw (lp s' i) = ClientModel.WTop)).
Proof.
  intros H M HD. pose proof H as [(P & O & HS) _ _ _ _ _]. pose proof (HS _ _ HD) as C.
  assert (OP : HolderModel.open (tab s i) = true).
  { destruct (HolderModel.open (tab s i)) eqn:X; [reflexivity|]. apply O in X. pose proof (ClientProofs.v_ck _ (ST_v3 _ _ _ _ H)) as V. rewrite X in V. destruct V as [[V|V] _]; congruence. }
  assert (F : exists s1, goes i n t s t s1 /\ ep s1 = ep s /\ hand s1 = hand s /\ HolderModel.pre (tab s1 i) <> None).
  { destruct (HolderModel.step (tab s i) HolderModel.Prefetch) as [o1 oc] eqn:S.
    assert (Q : o1 = [] /\ exists c, oc = Some c /\ HolderModel.pre c <> None).
    { destruct oc as [c|].
      - cbn [HolderModel.step] in S. destruct (HolderModel.pre (tab s i)) eqn:PR; [injection S as <- <-; split; [reflexivity|]; eexists; split; [reflexivity|congruence]|].
        rewrite OP in S. destruct (HolderModel.getNext _) as [[h sl]|]; [|discriminate]. injection S as <- <-. split; [reflexivity|]. eexists. split; [reflexivity|]. cbn. discriminate.
      - exfalso. assert (o1 = []) as -> by (cbn [HolderModel.step] in S; destruct (HolderModel.pre _); [discriminate|]; destruct (HolderModel.open _); [|discriminate]; destruct (HolderModel.getNext _) as [[? ?]|]; [discriminate|]; now injection S as <-).
        destruct (reach_run _ _ (v_tab _ _ _ P i)) as [es' R].
        assert (Z : HolderModel.run HolderModel.c_init (es' ++ [HolderModel.Prefetch]) = (at_conn i t, None)) by (rewrite HolderProps.run_app, R; cbn [HolderModel.run]; rewrite S; now rewrite app_nil_r).
        destruct (HolderProps.run_polite _ _ _ Z (t_pol _ _ _ _ H) (t_tim _ _ _ _ H)) as (c & Y & _). discriminate. }
    destruct Q as (-> & c & -> & NP). eexists. split; [|split; [|split]].
    - rewrite <- (app_nil_r t) at 2. eapply step_goes with (e := Fetch i); [exact H|reflexivity| |..]; try (rewrite app_nil_r; apply H).
      + cbn [step]. rewrite HD. unfold on. rewrite S. cbn [map]. reflexivity.
      + reflexivity.
      + reflexivity.
      + reflexivity.
    - reflexivity.
    - reflexivity.
    - cbn. now rewrite Nat.eqb_refl. }
  destruct F as (s1 & G1 & EP & HD1 & NP). pose proof (proj1 G1) as H1. clear P O HS OP.
  assert (C1 : ClientModel.cw (ClientModel.cn (ep s1) i) = ClientModel.WReq) by (rewrite EP; exact C).
  destruct (HolderModel.step (tab s1 i) (HolderModel.Send r)) as [o1 oc] eqn:S.
  assert (Q : exists c, oc = Some c /\ (o1 = [] \/ exists id, o1 = [HolderModel.OWire id r])).
  { cbn [HolderModel.step] in S. destruct (HolderModel.pre (tab s1 i)) as [[w j]|]; [|congruence]. destruct (HolderModel.rs (tab s1 i) r); [destruct (HolderModel.open (tab s1 i))|..]; injection S as <- <-; eauto. }
  destruct Q as (c & -> & Q).
  assert (PT : HolderSpec.polite (at_conn i t ++ o1) /\ HolderSpec.timely (at_conn i t ++ o1)).
  { destruct Q as [->|[id ->]]; [rewrite app_nil_r; split; apply H|]. split; [|apply M]. intros p i0 code body q Q. destruct q as [|y q] using rev_ind; [apply app_inj_tail in Q as [_ Q]; discriminate|]. clear IHq.
    rewrite app_comm_cons, app_assoc in Q. apply app_inj_tail in Q. destruct Q as [Q _]. eapply (t_pol _ _ _ _ H). exact Q. }
  destruct PT as [PL TM].
  destruct (HolderModel.pre (tab s1 i)) eqn:PR; [|congruence]. clear NP.
  set (e := if negb (fresh (tab s1 i) r) then ClientModel.W i else ClientModel.WFail i).
  set (c' := ClientModel.c_cw (ClientModel.cn (ep s1) i) (if negb (fresh (tab s1 i) r) then ClientModel.WTop else ClientModel.WNote)).
  assert (SE : ClientModel.step (ep s1) e = ([], ClientModel.w_cn (ep s1) i c')).
  { unfold e, c'. destruct (fresh (tab s1 i) r); cbn [negb ClientModel.step]; unfold ClientModel.step_w; rewrite C1; reflexivity. }
  assert (SS : step s1 (Write i false) = (map (seen i) o1, Some (w_ep (w_hand (w_tab (w_fin s1 (ended o1)) i c) i None) (ClientModel.w_cn (ep s1) i c')))).
  { cbn [step]. rewrite C1, HD1, HD, PR. cbn [orb]. fold e. unfold on. rewrite S. cbn [bind]. unfold turn. cbn [ep w_hand w_tab w_fin]. rewrite SE. cbn [map]. now rewrite app_nil_r. }
  exists (t ++ map (seen i) o1). eexists. split; [eapply goes_trans; [exact G1|]; eapply step_goes; [exact H1| |exact SS|..]|].
  - reflexivity.
  - rewrite app_at, seen_at, Nat.eqb_refl. exact PL.
  - rewrite app_at, seen_at, Nat.eqb_refl. exact TM.
  - reflexivity.
  - reflexivity.
  - unfold c'. now cf.
  - unfold c', wends. cf. destruct (fresh (tab s1 i) r); cbn [negb]; [left; now left|right]. now rewrite Nat.eqb_refl.
Qed.
Lemma write_goes i n t s : ST i n t s -> may_write i t -> exists t' s', goes i n t s t' s' /\ wends (lp s' i).
Proof.
  intros H M. destruct (hand s i) as [r|] eqn:HD.
  - destruct (hand_goes _ _ _ _ _ H M HD) as (t1 & s1 & G1 & [W|[HN C]]); [eauto|]. destruct (top_goes _ _ _ _ (proj1 G1) HN C) as (t2 & s2 & G2 & W). exists t2, s2. split; [eapply goes_trans; eauto|exact W].
  - destruct (ClientModel.cw (lp s i)) eqn:C.
    + exfalso. destruct (n_up _ (ST_v4 _ _ _ _ H) (t_cl _ _ _ _ H)) as (Q & _). congruence.
    + now apply top_goes.
    + now apply sel1_goes.
    + now apply sel2_goes.
    + now apply ping_goes.
    + exists t, s. split; [now apply goes_refl|]. now left.
    + exists t, s. split; [now apply goes_refl|]. right. now left.
    + exists t, s. split; [now apply goes_refl|]. right. now right.
Qed.
Lemma note_goes i n t s : ST i n t s -> wends (lp s i) -> exists t' s', goes i n t s t' s' /\ ClientSpec.wdone (lp s' i) /\ ClientModel.cr (lp s' i) = ClientModel.cr (lp s i).
Proof.
  intros H [C|C]; [|exists t, s; split; [now apply goes_refl|auto]].
  eexists _, _. split; [eapply loop_goes with (e := Ep (ClientModel.W i)); [exact H|reflexivity| |..]|].
  - cbn [step shared]. unfold lp in C. rewrite C. unfold turn. cbn [ClientModel.step]. unfold ClientModel.step_w. rewrite C. unfold ClientModel.tell.
    assert (L : (length (ClientModel.notes (ClientModel.c_cw (ClientModel.cn (ep s) i) ClientModel.WMsg)) <? 2)%nat = true).
    { apply Nat.ltb_lt. cbn. apply (short_notes _ ClientModel.NWrite); [apply (ST_v4 _ _ _ _ H)|]. intro Q. apply (ClientProofs.v_nw _ (ST_v3 _ _ _ _ H)) in Q. unfold lp, ClientSpec.wdone in Q. destruct Q; congruence. }
    rewrite L. reflexivity.
  - reflexivity.
  - reflexivity.
  - now cf.
  - split; [left|]; now cf.
Qed.

(** ** The control loop *)
Definition kends (c : ClientModel.conn) : Prop := ClientModel.ck c = ClientModel.KMsg \/ ClientModel.ck c = ClientModel.KFlush \/ ClientModel.ck c = ClientModel.KEnd.
Lemma control_goes i n : forall m t s, length (ClientModel.notes (lp s i)) = m -> ST i n t s -> ClientSpec.wdone (lp s i) -> ClientModel.cr (lp s i) = ClientModel.REnd ->
  exists t' s', goes i n t s t' s' /\ kends (lp s' i).
Proof.
  induction m as [|m IH]; intros t s LN H W R; destruct (ClientModel.ck (lp s i)) eqn:K;
    try (exists t, s; split; [now apply goes_refl|]; unfold kends; tauto);
    try (exfalso; destruct (n_up _ (ST_v4 _ _ _ _ H) (t_cl _ _ _ _ H)) as (_ & _ & Q); congruence).
  - exfalso. destruct (ST_v4 _ _ _ _ H) as [_ _ Y3 Y4 Y5]. destruct (ClientModel.notes (lp s i)); [|discriminate]. cbn [In] in *.
    destruct (Y3 K R) as [[]|A]. destruct (Y4 K W) as [[]|B]. specialize (Y5 K). rewrite A, B in Y5. discriminate.
  - destruct (ClientModel.notes (lp s i)) as [|x l] eqn:N; [discriminate|].
    set (rw := match ClientModel.cs (lp s i) with ClientModel.CsClosing r w => (r, w) | _ => (false, false) end).
    set (rw1 := match x with ClientModel.NWrite => (fst rw, true) | ClientModel.NRead => (true, snd rw) end).
    assert (S : step s (Ep (ClientModel.K i)) = ([], Some (w_ep s (ClientModel.w_cn (ep s) i (ClientModel.c_ck (ClientModel.c_cs (ClientModel.c_notes (lp s i) l) (ClientModel.CsClosing (fst rw1) (snd rw1))) (if fst rw1 && snd rw1 then ClientModel.KMsg else ClientModel.KRun)))))).
    { cbn [step shared]. unfold lp in *. rewrite K. unfold turn. cbn [ClientModel.step]. unfold ClientModel.step_k. rewrite K, N. fold rw. destruct rw as [r w]. unfold rw1. cbn [fst snd]. destruct x; reflexivity. }
    eassert (G : goes i n t s t _) by (eapply loop_goes; [exact H| |exact S|..]; [reflexivity|reflexivity|reflexivity|now cf]).
    destruct (fst rw1 && snd rw1) eqn:B.
    + exists t. eexists. split; [exact G|]. left. now cf.
    + match type of G with goes _ _ _ _ _ ?x => destruct (IH t x) as (t2 & s2 & G2 & KE); [|exact (proj1 G)| | |] end;
        [cf; cbn in LN; lia|unfold ClientSpec.wdone in *; cf; exact W|cf; exact R|].
      exists t2, s2. split; [eapply goes_trans; eauto|exact KE].
Qed.
Lemma report_turn s o s' : ClientModel.sp (ep s) = ClientModel.SIdle -> ClientModel.exiting (ep s) = false -> step s (Report 0) = (o, Some s') ->
  ClientModel.sp (ep s') = ClientModel.SIdle /\ ClientModel.exiting (ep s') = false /\ ClientModel.cn (ep s') = ClientModel.cn (ep s) /\ ClientModel.ch (ep s') = tl (ClientModel.ch (ep s)) /\ forall k, at_conn k o = [].
Proof.
  intros Sp X E. cbn [step] in E. apply bind_some in E as (o1 & s1 & o2 & E1 & E2 & ->).
  assert (Q : ep s' = ep s1 /\ forall k, at_conn k o2 = []).
  { destruct (says_all _); [unfold all_disconnected in E2|unfold skip in E2]; injection E2 as <- <-; [|now split]. now split. }
  destruct Q as [-> Q]. apply turn_ep in E1 as (o3 & -> & E1 & _). assert (A : forall k, at_conn k (map FEp o3 ++ o2) = []) by (intro k; rewrite app_at, ep_at; apply Q). clear Q E2.
  cbn [ClientModel.step] in E1. destruct (ClientModel.ch (ep s)) as [|[j k] c] eqn:Ch; [injection E1 as _ <-; rewrite Ch; auto|].
  unfold ClientModel.server_turn in E1. rewrite Sp in E1. destruct (ClientModel.on_conn_error _ _) as [o4 s4] eqn:OE.
  assert (Z2 : ClientModel.ch s4 = c /\ ClientModel.exiting s4 = false /\ ClientModel.cn s4 = ClientModel.cn (ep s)).
  { unfold ClientModel.on_conn_error in OE. cbn [fst snd] in OE. destruct k; try destruct (ClientModel.mem _ _); injection OE as <- <-; cbn; auto. }
  destruct Z2 as (Z2 & Z3 & Z4). unfold ClientModel.after, ClientModel.ok in E1. rewrite Z3 in E1. cbn [andb] in E1. injection E1 as _ <-. cbn. auto.
Qed.
Lemma room_goes i n : forall m t s, length (ClientModel.ch (ep s)) = m -> ST i n t s -> exists t' s', goes i n t s t' s' /\ ClientModel.ch (ep s') = [] /\ ClientModel.cn (ep s') = ClientModel.cn (ep s).
Proof.
  induction m as [|m IH]; intros t s LN H; [exists t, s; split; [now apply goes_refl|]; split; [now destruct (ClientModel.ch (ep s))|reflexivity]|].
  destruct (step s (Report 0)) as [o os] eqn:S.
  assert (X : exists s1, os = Some s1).
  { destruct os; [eauto|]. exfalso. cbn [step] in S. apply bind_none in S as [S|(oa & sa & ob & _ & Sb & _)]; [elim (turn_none _ _ _ S)|]. destruct (says_all _); discriminate Sb. }
  destruct X as [s1 ->]. destruct (report_turn _ _ _ (t_sp _ _ _ _ H) (t_ex _ _ _ _ H) S) as (A & B & C & D & E).
  assert (G : goes i n t s (t ++ o) s1).
  { eapply step_goes; [exact H| |exact S|..]; try (rewrite app_at, E, app_nil_r; apply H); [exact Logic.I|rewrite A; symmetry; apply H|rewrite B; symmetry; apply H|unfold lp; now rewrite C]. }
  destruct (IH (t ++ o) s1) as (t2 & s2 & G2 & Q1 & Q2); [rewrite D; destruct (ClientModel.ch (ep s)); [discriminate|]; cbn in *; lia|exact (proj1 G)|].
  exists t2, s2. split; [eapply goes_trans; eauto|]. split; [exact Q1|congruence].
Qed.
Lemma msg_goes i n t s : ST i n t s -> ClientModel.ck (lp s i) = ClientModel.KMsg -> exists t' s', goes i n t s t' s' /\ ClientModel.ck (lp s' i) = ClientModel.KFlush.
Proof.
  intros H K. destruct (room_goes i n _ t s eq_refl H) as (t1 & s1 & G1 & Ch & Cn). assert (K1 : ClientModel.ck (ClientModel.cn (ep s1) i) = ClientModel.KMsg) by (rewrite Cn; exact K).
  eexists t1, _. split; [eapply goes_trans; [exact G1|]; eapply loop_goes with (e := Ep (ClientModel.K i)); [exact (proj1 G1)|reflexivity| |..]|].
  - cbn [step shared]. rewrite K1. unfold turn. cbn [ClientModel.step]. unfold ClientModel.step_k. rewrite K1. unfold ClientModel.send. rewrite Ch. cbn [length ClientModel.cap Nat.ltb Nat.leb ClientModel.ok map]. reflexivity.
  - reflexivity.
  - reflexivity.
  - now cf.
  - now cf.
Qed.
(** from the end of the control loop, the rest of what is in flight is failed *)
Lemma ended_completes n t s i : INV n t s -> HolderSpec.polite (at_conn i t) -> HolderSpec.timely (at_conn i t) -> ClientModel.ck (lp s i) = ClientModel.KEnd ->
  exists k o s', run s (repeat (Flush i) k) = (o, Some s') /\ forall r, In r (written_on i (t ++ o)) -> In r (map fst (completions (t ++ o))).
Proof.
  intros I G1 G2 K. destruct (run_flushes i (length (HolderModel.flush (tab s i))) s) as (o & s' & R & F & OP & Q). rewrite skipn_all in F. exists (length (HolderModel.flush (tab s i))), o, s'. split; [exact R|].
  pose proof (run_INV _ _ _ _ _ _ I R) as (P2 & _ & _). pose proof (v_L _ _ _ P2) as L2. intros r W. pose proof (l_won _ _ L2 _ _ W) as N. apply (l_fin _ _ L2).
  destruct (HolderModel.rs (tab s' i) r) as [|w j|x] eqn:RR; [congruence| |eapply (l_done _ _ L2); eauto]. exfalso.
  destruct (still_polite _ _ Q G1 G2) as [G3 G4]. rewrite <- app_at in G3, G4. destruct (HolderProps.reach_polite _ _ (v_tab _ _ _ P2 i) G3 G4) as (_ & _ & PI2).
  destruct (HolderPolite.pi_closed _ _ PI2) as [_ X]; [|apply X in RR; rewrite F in RR; destruct RR]. rewrite OP. destruct I as (_ & O & _). now apply O.
Qed.

(** C146. From every reachable state in which the peers behaved and the endpoint is not busy stopping connections: when the
    network of an established connection is lost, steps of that connection alone, with the endpoint taking reports, complete
    every request that was ever written on it, the one being written at that moment included. No other connection, no
    timeout and no user needs to do anything. *)
Theorem C146_lost_connection_partial : forall n es t s i, start n es = (t, Some s) -> good_peers t -> may_write i t ->
  ClientModel.sp (ep s) = ClientModel.SIdle -> ClientModel.exiting (ep s) = false -> ClientModel.cl (ClientModel.cn (ep s) i) = ClientModel.LOk ->
  exists es' o s', Forall (losing i) es' /\ run s es' = (o, Some s') /\
    forall r, In r (written_on i (t ++ o)) -> In r (map fst (completions (t ++ o))).
Proof.
  intros n es t s i E G M Sp Ex Cl. destruct (G i) as [G1 G2]. assert (H : ST i n t s) by (constructor; auto; eapply start_INV; eauto).
  destruct (write_goes _ _ _ _ H M) as (t1 & s1 & R1 & W1). destruct (note_goes _ _ _ _ (proj1 R1) W1) as (t2 & s2 & R2 & W2 & _).
  destruct (read_goes _ _ _ _ (proj1 R2)) as (t3 & s3 & R3 & RE & WE). assert (W3 : ClientSpec.wdone (lp s3 i)) by (unfold ClientSpec.wdone; now rewrite WE).
  destruct (control_goes i n _ t3 s3 eq_refl (proj1 R3) W3 RE) as (t4 & s4 & R4 & KE).
  assert (R : goes i n t s t4 s4) by (eapply goes_trans; [exact R1|eapply goes_trans; [exact R2|eapply goes_trans; eauto]]). clear R1 R2 R3 R4 W1 W2 W3 RE WE.
  assert (X : exists t5 s5, goes i n t s t5 s5 /\ (ClientModel.ck (lp s5 i) = ClientModel.KFlush \/ ClientModel.ck (lp s5 i) = ClientModel.KEnd)).
  { destruct KE as [K|K]; [|eauto]. destruct (msg_goes _ _ _ _ (proj1 R) K) as (t5 & s5 & R5 & K5). exists t5, s5. split; [eapply goes_trans; eauto|auto]. }
  clear - X. destruct X as (t5 & s5 & ([I P T _ _ _] & es1 & o1 & F1 & Q1 & ->) & K).
  assert (Y : exists es2 o2 s6, Forall (losing i) es2 /\ run s5 es2 = (o2, Some s6) /\ forall r, In r (written_on i ((t ++ o1) ++ o2)) -> In r (map fst (completions ((t ++ o1) ++ o2)))).
  { assert (FL : forall k, Forall (losing i) (repeat (Flush i) k)) by (intro k; apply Forall_forall; intros e X; apply repeat_spec in X; now subst e).
    destruct K as [K|K]; [destruct (flush_completes _ _ _ _ I P T K) as (k & o2 & s6 & Q2 & Z)|destruct (ended_completes _ _ _ _ I P T K) as (k & o2 & s6 & Q2 & Z)]; eexists _, o2, s6; (split; [|split; [exact Q2|exact Z]]); [constructor; [reflexivity|auto]|auto]. }
  destruct Y as (es2 & o2 & s6 & F2 & Q2 & Z). exists (es1 ++ es2), (o1 ++ o2), s6. rewrite Forall_app, run_app, Q1. cbn [bind]. rewrite Q2, !app_assoc. auto.
Qed.
Print Assumptions C146_lost_connection_partial.
(** The history of [C146_history], after which connection 1 takes request 6: request 5 is in flight on it and request 6 about to be written. *)
Definition C146_taken : list ev := C146_history ++ [Ep (ClientModel.W 1); Ep (ClientModel.W 1); Take 1].
Example C146_lost_example : exists s, start 2 C146_taken = (C146_trace, Some s) /\ good_peers C146_trace /\ may_write 1 C146_trace /\
  ClientModel.sp (ep s) = ClientModel.SIdle /\ ClientModel.exiting (ep s) = false /\ ClientModel.cl (ClientModel.cn (ep s) 1) = ClientModel.LOk /\
  hand s 1 = Some 6%nat /\ In 5%nat (written_on 1 C146_trace) /\ ~ In 5%nat (map fst (completions C146_trace)).
Proof.
  destruct (start 2 C146_taken) as [t [s|]] eqn:E; [|exfalso; assert (X : snd (start 2 C146_taken) <> None) by (vm_compute; discriminate); rewrite E in X; now apply X].
  assert (T : t = C146_trace) by (apply (f_equal fst) in E; cbn [fst] in E; rewrite <- E; vm_compute; reflexivity). subst t.
  assert (X : match snd (start 2 C146_taken) with Some s => ClientModel.sp (ep s) = ClientModel.SIdle /\ ClientModel.exiting (ep s) = false /\ ClientModel.cl (ClientModel.cn (ep s) 1) = ClientModel.LOk /\ hand s 1 = Some 6%nat | None => False end) by (vm_compute; now repeat split).
  rewrite E in X. cbn [snd] in X. destruct X as (X1 & X2 & X3 & X4). exists s. split; [reflexivity|]. split; [peers|]. split.
  - intros id r. match goal with |- HolderSpec.timely ?t => destruct (HolderProps.politeb_all t) as (_ & B & _); [vm_compute; reflexivity|exact B] end.
  - repeat (split; [assumption|]). split; [vm_compute; auto|]. vm_compute. intuition discriminate.
Qed.
