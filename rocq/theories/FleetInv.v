(** The invariant holds in every reachable state. *)
From Coq Require Import ZArith List Bool Arith Lia.
Import ListNotations.
From Verif Require ClientModel ClientProofs HolderModel HolderSpec HolderProofs.
From Verif Require Import FleetModel FleetSpec FleetClient FleetHolder FleetProofs.

Definition lp (s : st) (i : nat) : ClientModel.conn := ClientModel.cn (ep s) i.
Record PI (n : Z) (t : list obs) (s : st) : Prop := {
  v_ep : creach n (of_endpoint t) (ep s);
  v_tab : forall i, HolderProofs.reach (tab s i) (at_conn i t);
  v_own : forall i, OWN (tab s i);
  v_read : forall i, HolderModel.reader (tab s i) <> None -> ClientModel.cr (lp s i) = ClientModel.RRun;
  v_L : L t s }.
Definition OPENS (s : st) : Prop := forall i, HolderModel.open (tab s i) = false <-> ClientModel.ck (lp s i) = ClientModel.KEnd.
Definition HANDS (s : st) : Prop := forall i r, hand s i = Some r -> ClientModel.cw (lp s i) = ClientModel.WReq.
Definition INV (n : Z) (t : list obs) (s : st) : Prop := PI n t s /\ OPENS s /\ HANDS s.

Lemma turn_ep s e o s' : turn s e = (o, Some s') -> exists o1, o = map FEp o1 /\ ClientModel.step (ep s) e = (o1, ep s') /\ s' = w_ep s (ep s').
Proof. unfold turn. destruct (ClientModel.step (ep s) e) as [o1 p] eqn:E. intro X. injection X as <- <-. exists o1. now repeat split. Qed.
Lemma turn_chg n t s e o s' : creach n (of_endpoint t) (ep s) -> turn s e = (o, Some s') -> forall i, chg e i (lp s i) (lp s' i).
Proof. intros R E. apply turn_ep in E as (o1 & _ & E & _). eapply creach_chg; eauto. Qed.
Lemma turn_PI n t s e o s' : PI n t s -> (forall i, e = ClientModel.RFail i -> HolderModel.reader (tab s i) = None) -> turn s e = (o, Some s') -> PI n (t ++ o) s'.
Proof.
  intros [] RF E. pose proof (turn_chg _ _ _ _ _ _ v_ep0 E) as C. apply turn_ep in E as (o1 & -> & E & ->). constructor; fl.
  - rewrite app_ep, ep_ep. eapply creach_step; eauto.
  - intro i. rewrite app_at, ep_at, app_nil_r. auto.
  - assumption.
  - intros i X. destruct (C i) as (_ & C2 & _). destruct (C2 (v_read0 i X)) as [Y|Y]; [exact Y|]. elim X. now apply RF.
  - now apply L_ep.
Qed.
Lemma turn_OPENS n t s e o s' : creach n (of_endpoint t) (ep s) -> OPENS s -> (forall i, e = ClientModel.K i -> ClientModel.ck (lp s i) <> ClientModel.KFlush) -> turn s e = (o, Some s') -> OPENS s'.
Proof.
  intros R O K E i. destruct (turn_chg _ _ _ _ _ _ R E i) as (_ & _ & C3 & C4). apply turn_ep in E as (o1 & -> & E & ->). fl. rewrite (O i). split; [exact C3|].
  intro X. destruct (C4 X) as [Y|[Y Z]]; [exact Y|]. elim (K i Y Z).
Qed.
Lemma turn_HANDS n t s e o s' : creach n (of_endpoint t) (ep s) -> HANDS s -> (forall i, e = ClientModel.W i \/ e = ClientModel.WFail i -> ClientModel.cw (lp s i) <> ClientModel.WReq \/ hand s i = None) -> turn s e = (o, Some s') -> HANDS s'.
Proof.
  intros R O K E i r. destruct (turn_chg _ _ _ _ _ _ R E i) as (C1 & _). apply turn_ep in E as (o1 & -> & E & ->). fl. intro X.
  pose proof (O i r X) as Y. destruct (C1 Y) as [Z|Z]; [exact Z|]. destruct (K i Z); congruence.
Qed.
Lemma on_tab s i e o s' : on s i e = (o, Some s') -> exists o1 c, o = map (seen i) o1 /\ HolderModel.step (tab s i) e = (o1, Some c) /\ s' = w_tab (w_fin s (ended o1)) i c.
Proof. unfold on. destruct (HolderModel.step (tab s i) e) as [o1 [c|]] eqn:E; intro X; [|discriminate]. injection X as <- <-. now exists o1, c. Qed.
Lemma reach_on t s i e o1 c : (forall k, HolderProofs.reach (tab s k) (at_conn k t)) -> HolderModel.step (tab s i) e = (o1, Some c) ->
  forall k, HolderProofs.reach (if (k =? i)%nat then c else tab s k) (at_conn k (t ++ map (seen i) o1)).
Proof.
  intros R E k. rewrite app_at, seen_at, (Nat.eqb_sym i k). eqb k i; [eapply HolderProofs.reachS; eauto|]. now rewrite app_nil_r.
Qed.
Lemma on_PI n t s i e o s' : PI n t s -> (forall r, e <> HolderModel.Send r) -> (forall r code, e <> HolderModel.Local r code) ->
  (forall id code body, e = HolderModel.Resp id code body -> ClientModel.cr (lp s i) = ClientModel.RRun) -> on s i e = (o, Some s') -> PI n (t ++ o) s'.
Proof.
  intros [] NS NL RS E. apply on_tab in E as (o1 & c & -> & E & ->). constructor; fl.
  - rewrite app_ep, seen_ep, app_nil_r. assumption.
  - eapply reach_on; eauto.
  - intro k. eqb k i; [|auto]. exact (proj1 (tab_step _ _ _ _ (v_own0 i) NL E)).
  - intro k. unfold lp in *. fl. eqb k i; [|apply v_read0]. intro X. destruct (tab_loops _ _ _ _ E) as (_ & _ & _ & Q). destruct (Q X) as [Y|(id & code & body & Y)]; [apply v_read0; exact Y|]. eapply RS; eauto.
  - eapply L_on; eauto.
Qed.
Lemma on_OPENS s i e o s' : OPENS s -> e <> HolderModel.Close -> on s i e = (o, Some s') -> OPENS s'.
Proof.
  intros O NC E k. apply on_tab in E as (o1 & c & -> & E & ->). unfold lp in *. fl. rewrite <- (O k). eqb k i; [|tauto]. destruct (tab_loops _ _ _ _ E) as (A & B & _).
  split; [intro X; destruct (B X); [assumption|contradiction]|]. intro X. destruct (HolderModel.open c); [|reflexivity]. rewrite A in X by reflexivity. discriminate.
Qed.
Lemma on_HANDS s i e o s' : HANDS s -> on s i e = (o, Some s') -> HANDS s'.
Proof. intros H E k r. apply on_tab in E as (o1 & c & -> & E & ->). exact (H k r). Qed.
Lemma bind_some r f o s' : bind r f = (o, Some s') -> exists o1 s1 o2, r = (o1, Some s1) /\ f s1 = (o2, Some s') /\ o = o1 ++ o2.
Proof. destruct r as [o1 [s1|]]; cbn [bind]; [|discriminate]. destruct (f s1) as [o2 s2] eqn:E. intro X. injection X as <- ->. now exists o1, s1, o2. Qed.

Lemma turn_INV n t s e o s' : INV n t s -> (forall i, e = ClientModel.RFail i -> HolderModel.reader (tab s i) = None) ->
  (forall i, e = ClientModel.K i -> ClientModel.ck (lp s i) <> ClientModel.KFlush) ->
  (forall i, e = ClientModel.W i \/ e = ClientModel.WFail i -> ClientModel.cw (lp s i) <> ClientModel.WReq \/ hand s i = None) -> turn s e = (o, Some s') -> INV n (t ++ o) s'.
Proof.
  intros (P & O & H) A B C E. split; [eapply turn_PI; eauto|]. split; [eapply turn_OPENS; eauto; apply P|eapply turn_HANDS; eauto; apply P].
Qed.
Lemma on_INV n t s i e o s' : INV n t s -> match e with HolderModel.Send _ | HolderModel.Local _ _ | HolderModel.Close => False | HolderModel.Resp _ _ _ => ClientModel.cr (lp s i) = ClientModel.RRun | _ => True end ->
  on s i e = (o, Some s') -> INV n (t ++ o) s'.
Proof.
  intros (P & O & H) A E. split; [|split; [|eapply on_HANDS; eauto]].
  - eapply on_PI; eauto; destruct e; try contradiction; try discriminate. intros. exact A.
  - eapply on_OPENS; eauto. now intros ->.
Qed.
Lemma skip_INV n t s o s' : INV n t s -> skip s = (o, Some s') -> INV n (t ++ o) s'.
Proof. intros I E. injection E as <- <-. now rewrite app_nil_r. Qed.
Lemma on_lp s i e o s' : on s i e = (o, Some s') -> forall k, lp s' k = lp s k. Proof. intros E k. apply on_tab in E as (? & ? & -> & _ & ->). reflexivity. Qed.
Lemma on_hand s i e o s' : on s i e = (o, Some s') -> hand s' = hand s. Proof. intro E. apply on_tab in E as (? & ? & -> & _ & ->). reflexivity. Qed.
Lemma shared_INV n t s e o s' : INV n t s -> shared s e = (o, Some s') -> INV n (t ++ o) s'.
Proof.
  intros I E. pose proof I as (P & O & H).
  assert (T : (forall i, e <> ClientModel.RFail i) -> (forall i, e <> ClientModel.K i) -> (forall i, e <> ClientModel.W i) -> (forall i, e <> ClientModel.WFail i) -> turn s e = (o, Some s') -> INV n (t ++ o) s').
  { intros A B C D. apply turn_INV; [exact I|intros i X; elim (A i X)|intros i X; elim (B i X)|intros i [X|X]; [elim (C i X)|elim (D i X)]]. }
  assert (TW : forall i, (e = ClientModel.W i \/ e = ClientModel.WFail i) -> ClientModel.cw (lp s i) <> ClientModel.WReq -> turn s e = (o, Some s') -> INV n (t ++ o) s').
  { intros i X Y. apply turn_INV; [exact I|intros j ->; destruct X; discriminate|intros j ->; destruct X; discriminate|intros j Z]. left. destruct X as [-> | ->], Z as [Z|Z]; try discriminate; injection Z as <-; exact Y. }
  destruct e; cbn [shared] in E; try (apply T; [discriminate..|exact E]); try (eapply skip_INV; eauto; fail).
  - destruct (ClientModel.cw (ClientModel.cn (ep s) i)) eqn:C; try (apply (TW i); [auto|unfold lp; congruence|exact E]); try (eapply skip_INV; eauto; fail).
    destruct (ClientModel.stopped _); [|apply (TW i); [auto|unfold lp; congruence|exact E]].
    apply bind_some in E as (o1 & s1 & o2 & E1 & E2 & ->). rewrite app_assoc. pose proof (on_lp _ _ _ _ _ E1 i) as Q. eapply turn_INV; [eapply on_INV; [exact I| |exact E1]; exact Logic.I| | | |exact E2]; try discriminate.
    intros k [X|X]; [|discriminate]. injection X as <-. left. rewrite Q. unfold lp. congruence.
  - destruct (ClientModel.cw (ClientModel.cn (ep s) i)) eqn:C; try (apply (TW i); [auto|unfold lp; congruence|exact E]). eapply skip_INV; eauto.
  - destruct (ClientModel.sp (ep s)); try (eapply skip_INV; eauto; fail). destruct (ClientModel.cw (ClientModel.cn (ep s) i)) eqn:C; try (eapply skip_INV; eauto; fail).
    destruct (_ =? _)%nat; [|eapply skip_INV; eauto]. apply bind_some in E as (o1 & s1 & o2 & E1 & E2 & ->). rewrite app_assoc.
    eapply turn_INV; [eapply on_INV; [exact I| |exact E1]; exact Logic.I| | | |exact E2]; try discriminate. intros m [X|X]; discriminate.
  - destruct (HolderModel.reader (tab s i)) eqn:C; [eapply skip_INV; eauto|]. eapply turn_INV; [exact I| | | |exact E]; try discriminate; [|intros k [X|X]; discriminate]. intros k X. injection X as <-. exact C.
  - destruct (ClientModel.ck (ClientModel.cn (ep s) i)) eqn:C; try (eapply turn_INV; [exact I| | | |exact E]; try discriminate; [intros k X; injection X as <-; unfold lp; congruence|intros k [X|X]; discriminate]).
    apply bind_some in E as (o1 & s1 & o2 & E1 & E2 & ->). rewrite app_assoc.
    assert (P1 : PI n (t ++ o1) s1) by (eapply turn_PI; [exact P| |exact E1]; discriminate).
    assert (H1 : HANDS s1) by (eapply turn_HANDS; [apply P|exact H| |exact E1]; intros k [X|X]; discriminate).
    assert (RN : HolderModel.reader (tab s1 i) = None).
    { pose proof (creach_valid _ _ _ (v_ep _ _ _ P) i) as V. apply ClientProofs.v_ck in V. rewrite C in V. destruct V as [_ V].
      pose proof (turn_ep _ _ _ _ E1) as (_ & _ & _ & ->). fl. destruct (HolderModel.reader (tab s i)) eqn:Q; [|reflexivity]. pose proof (v_read _ _ _ P i) as R. unfold lp in R. rewrite Q, V in R. discriminate R. discriminate. }
    split; [eapply on_PI; [exact P1| | | |exact E2]; discriminate|]. split; [|eapply on_HANDS; eauto].
    pose proof (turn_chg _ _ _ _ _ _ (v_ep _ _ _ P) E1) as CH.
    assert (KE : ClientModel.ck (lp s1 i) = ClientModel.KEnd).
    { apply turn_ep in E1 as (o3 & -> & E1 & ->). cbn [ClientModel.step] in E1. unfold ClientModel.step_k in E1. rewrite C in E1. injection E1 as _ E1. unfold lp. fl. rewrite <- E1. cbn. unfold ClientModel.upd. now rewrite Nat.eqb_refl. }
    assert (TB : tab s1 = tab s) by (apply turn_ep in E1 as (o3 & _ & _ & ->); reflexivity).
    apply on_tab in E2 as (o3 & c & -> & E2 & ->). destruct (tab_loops _ _ _ _ E2) as (_ & _ & Q & _). specialize (Q eq_refl RN). intro k. unfold lp in *. fl.
    eqb k i; [rewrite KE; tauto|]. rewrite TB, (O k). destruct (CH k) as (_ & _ & C3 & C4). split; [exact C3|]. intro X. destruct (C4 X) as [Y|[Y _]]; [exact Y|]. injection Y as ->. congruence.
Qed.
Lemma turn_fields s e o s' : turn s e = (o, Some s') -> tab s' = tab s /\ queue s' = queue s /\ hand s' = hand s /\ sent s' = sent s /\ fin s' = fin s.
Proof. intro E. apply turn_ep in E as (? & _ & _ & ->). now repeat split. Qed.
Lemma step_INV n t s e o s' : INV n t s -> step s e = (o, Some s') -> INV n (t ++ o) s'.
Proof.
  intros I E. pose proof I as (P & O & H). destruct e; cbn [step] in E.
  - destruct (sent s r) eqn:S; [eapply skip_INV; eauto|]. destruct (fin s r) eqn:F; [eapply skip_INV; eauto|]. cbn [orb] in E. injection E as <- <-. destruct P. split; [|split; assumption].
    constructor; fl; auto; [rewrite app_ep; cbn; now rewrite app_nil_r|intro i; rewrite app_at; cbn; rewrite app_nil_r; auto|now apply L_send].
  - destruct (fin s r) eqn:F; [eapply skip_INV; eauto|]. injection E as <- <-. destruct P.
    assert (Q : forall i, exists c', local (tab s i) r code = c' /\ HolderModel.step (tab s i) (HolderModel.Local r code) = ([HolderModel.ODone r (HolderModel.Elsewhere code)], Some c') /\ OWN c' /\
       HolderModel.open c' = HolderModel.open (tab s i) /\ HolderModel.reader c' = HolderModel.reader (tab s i)).
    { intro i. destruct (local_step (tab s i) r code (v_own0 i)) as (c' & E & W & R & A & B & _); [intros x X; apply (l_done _ _ v_L0) in X; congruence|].
      exists c'. unfold local. rewrite E. now repeat split. }
    split; [|split].
    + constructor; fl.
      * rewrite app_ep; cbn; now rewrite app_nil_r.
      * intro i. destruct (Q i) as (c' & -> & E & _). rewrite app_at. cbn. eapply HolderProofs.reachS; eauto.
      * intro i. destruct (Q i) as (c' & -> & _ & W & _). exact W.
      * intro i. destruct (Q i) as (c' & -> & _ & _ & _ & ->). apply v_read0.
      * now apply L_local.
    + intro i. unfold lp. fl. destruct (Q i) as (c' & -> & _ & _ & -> & _). apply O.
    + exact H.
  - assert (TK : forall r q, queue s = r :: q -> ClientModel.cw (ClientModel.cn (ep s) i) = ClientModel.WSel1 \/ ClientModel.cw (ClientModel.cn (ep s) i) = ClientModel.WSel2 -> turn (w_hand (w_queue s q) i (Some r)) (ClientModel.WGet i) = (o, Some s') -> INV n (t ++ o) s').
    { intros r q Q C E1. assert (HN : hand s i = None) by (destruct (hand s i) eqn:X; [apply H in X; unfold lp in X; destruct C; congruence|reflexivity]).
      assert (P1 : PI n t (w_hand (w_queue s q) i (Some r))) by (destruct P; constructor; fl; auto; now apply L_take).
      split; [eapply turn_PI; [exact P1| |exact E1]; discriminate|]. split.
      - eapply turn_OPENS; [exact (v_ep _ _ _ P1)| | |exact E1]; [exact O|discriminate].
      - intros k p X. destruct (turn_chg _ _ _ _ _ _ (v_ep _ _ _ P1) E1 k) as (C1 & _). apply turn_ep in E1 as (o1 & -> & E1 & QQ). assert (HS : hand s' k = if (k =? i)%nat then Some r else hand s k) by (rewrite QQ; reflexivity). rewrite HS in X. clear QQ HS. fl. unfold lp in *. fl. eqb k i.
        + cbn [ClientModel.step] in E1. destruct C as [C|C]; rewrite C in E1; injection E1 as _ E1; rewrite <- E1; cbn; unfold ClientModel.upd; now rewrite Nat.eqb_refl.
        + destruct (C1 (H _ _ X)) as [Y|[Y|Y]]; [exact Y|discriminate|discriminate]. }
    destruct (ClientModel.cw (ClientModel.cn (ep s) i)) eqn:C; try (eapply skip_INV; eauto; fail); (destruct (queue s) as [|r q] eqn:Q; [eapply skip_INV; eauto|eapply TK; eauto]).
  - destruct (ClientModel.cw (ClientModel.cn (ep s) i)) eqn:C; try (eapply skip_INV; eauto; fail). eapply turn_INV; [exact I| | | |exact E]; try discriminate. intros k [X|X]; discriminate.
  - destruct (hand s i); [|eapply skip_INV; eauto]. eapply on_INV; [exact I| |exact E]. exact Logic.I.
  - destruct (ClientModel.cw (ClientModel.cn (ep s) i)) eqn:C; try (eapply skip_INV; eauto; fail). destruct (hand s i) as [r|] eqn:HD.
    + destruct (HolderModel.pre (tab s i)) eqn:PR; [|eapply skip_INV; eauto]. set (e := if good || negb (fresh (tab s i) r) then ClientModel.W i else ClientModel.WFail i) in E.
      assert (EE : e = ClientModel.W i \/ e = ClientModel.WFail i) by (unfold e; destruct (_ || _); auto). clearbody e.
      apply bind_some in E as (o1 & s1 & o2 & E1 & E2 & ->). rewrite app_assoc.
      assert (OP : HolderModel.open (tab s i) = true).
      { destruct (HolderModel.open (tab s i)) eqn:X; [reflexivity|]. apply O in X. pose proof (creach_valid _ _ _ (v_ep _ _ _ P) i) as V. apply ClientProofs.v_ck in V. unfold lp in X. rewrite X in V. destruct V as [[V|V] _]; congruence. }
      assert (I1 : INV n (t ++ o1) (w_hand s1 i None)).
      { assert (NC : HolderModel.Send r <> HolderModel.Close) by discriminate. pose proof (on_OPENS _ _ _ _ _ O NC E1) as O1. pose proof (on_HANDS _ _ _ _ _ H E1) as H1. apply on_tab in E1 as (o3 & c & -> & E1 & ->). split; [|split; [exact O1|]].
        - destruct P. constructor; fl.
          + rewrite app_ep, seen_ep, app_nil_r. assumption.
          + eapply reach_on; eauto.
          + intro k. eqb k i; [|auto]. assert (NL : forall r0 code, HolderModel.Send r <> HolderModel.Local r0 code) by discriminate. exact (proj1 (tab_step _ _ _ _ (v_own0 i) NL E1)).
          + intro k. unfold lp in *. fl. eqb k i; [|auto]. intro X. destruct (tab_loops _ _ _ _ E1) as (_ & _ & _ & Q). destruct (Q X) as [Y|(id & code & body & Y)]; [auto|discriminate].
          + eapply L_write; eauto. congruence.
        - intros k p0. fl. unfold lp. fl. eqb k i; [discriminate|]. apply H. }
      eapply turn_INV; [exact I1| | | |exact E2]; [intros k X; destruct EE; congruence|intros k X; destruct EE; congruence|].
      intros k X. right. fl. assert (k = i) by (destruct EE as [-> | ->], X as [X|X]; congruence). subst k. now rewrite Nat.eqb_refl.
    + eapply turn_INV; [exact I| | | |exact E]; [intros k; destruct good; discriminate|intros k; destruct good; discriminate|]. intros k X. right. assert (k = i) by (destruct good, X; congruence). now subst k.
  - destruct (ClientModel.cr (ClientModel.cn (ep s) i)) eqn:C; try (eapply skip_INV; eauto; fail). eapply on_INV; [exact I| |exact E]. exact C.
  - eapply on_INV; [exact I| |exact E]. exact Logic.I.
  - eapply on_INV; [exact I| |exact E]. exact Logic.I.
  - apply bind_some in E as (o1 & s1 & o2 & E1 & E2 & ->). rewrite app_assoc. assert (I1 : INV n (t ++ o1) s1) by (eapply turn_INV; [exact I| | | |exact E1]; try discriminate; intros j [X|X]; discriminate).
    destruct (says_all _); [|eapply skip_INV; eauto]. unfold all_disconnected in E2. injection E2 as <- <-. destruct I1 as (P1 & O1 & H1). split; [|split; [exact O1|exact H1]]. destruct P1. constructor; fl; auto.
    + rewrite app_ep, ep_q, app_nil_r. assumption.
    + intro i. rewrite app_at, at_q, app_nil_r. auto.
    + now apply L_all.
  - eapply shared_INV; eauto.
Qed.
Lemma INV_init n : INV n (fst (f_init n)) (snd (f_init n)).
Proof.
  unfold f_init. destruct (ClientModel.s_init n) as [o p] eqn:E. cbn [fst snd].
  assert (CN : forall i, ClientModel.cn p i = ClientModel.new_conn).
  { intro i. unfold ClientModel.s_init in E. destruct (ClientProofs.fl_open i _ _ _ _ E) as [_ Q]; [reflexivity|exact Q]. }
  split; [|split].
  - constructor; fl.
    + rewrite ep_ep. now apply creach_init.
    + intro i. rewrite ep_at. constructor.
    + intro i. apply OWN_init.
    + intros i X. now elim X.
    + constructor; fl; cbn [In]; try discriminate; try tauto; rewrite ?ep_completions, ?ep_written; cbn [map In]; try constructor; try discriminate; try tauto.
      * intros i r. rewrite ep_written_on. intros [].
      * intro X. elim (ep_sent r o X).
  - intro i. unfold lp. fl. rewrite CN. cbn. split; discriminate.
  - intros i r. discriminate.
Qed.
(** * Executions *)
Lemma run_INV n : forall es t s o s', INV n t s -> run s es = (o, Some s') -> INV n (t ++ o) s'.
Proof.
  induction es as [|e es IH]; intros t s o s' I E; cbn [run] in E; [injection E as <- <-; now rewrite app_nil_r|].
  apply bind_some in E as (o1 & s1 & o2 & E1 & E2 & ->). rewrite app_assoc. eapply IH; [|exact E2]. eapply step_INV; eauto.
Qed.
Lemma start_INV n es t s : start n es = (t, Some s) -> INV n t s.
Proof.
  unfold start. pose proof (INV_init n) as I. destruct (f_init n) as [o0 s0]. cbn [fst snd] in I. intro E. apply bind_some in E as (o1 & s1 & o2 & E1 & E2 & ->). injection E1 as <- <-. eapply run_INV; eauto.
Qed.
