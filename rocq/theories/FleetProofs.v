(** Invariants of the endpoint with its requests. *)
From Coq Require Import ZArith List Bool Arith Lia.
Import ListNotations.
From Verif Require ClientModel ClientProofs HolderModel HolderSpec HolderProofs.
From Verif Require Import FleetModel FleetSpec FleetClient FleetHolder.

Lemma app_completions a b : completions (a ++ b) = completions a ++ completions b. Proof. apply flat_map_app. Qed.
Lemma app_written a b : written (a ++ b) = written a ++ written b. Proof. apply flat_map_app. Qed.
Lemma app_written_on i a b : written_on i (a ++ b) = written_on i a ++ written_on i b. Proof. apply flat_map_app. Qed.
Lemma app_ep a b : of_endpoint (a ++ b) = of_endpoint a ++ of_endpoint b. Proof. apply flat_map_app. Qed.
Lemma app_at i a b : at_conn i (a ++ b) = at_conn i a ++ at_conn i b. Proof. apply flat_map_app. Qed.
Lemma ep_completions o : completions (map FEp o) = []. Proof. now induction o. Qed.
Lemma ep_written o : written (map FEp o) = []. Proof. now induction o. Qed.
Lemma ep_written_on i o : written_on i (map FEp o) = []. Proof. now induction o. Qed.
Lemma ep_ep o : of_endpoint (map FEp o) = o. Proof. induction o; [reflexivity|]. cbn. unfold of_endpoint in *. now f_equal. Qed.
Lemma ep_at i o : at_conn i (map FEp o) = []. Proof. now induction o. Qed.
Lemma ep_sent r o : ~ In (FSent r) (map FEp o). Proof. rewrite in_map_iff. now intros (x & X & _). Qed.
Lemma seen_completions i o : completions (map (seen i) o) = HolderSpec.dones o. Proof. induction o as [|[] o IH]; [reflexivity|..]; cbn; unfold completions in *; now rewrite ?IH. Qed.
Lemma seen_written i o : written (map (seen i) o) = map snd (HolderSpec.wires o). Proof. induction o as [|[] o IH]; [reflexivity|..]; cbn; unfold written in *; now rewrite ?IH. Qed.
Lemma seen_written_on i k o : written_on k (map (seen i) o) = if (i =? k)%nat then map snd (HolderSpec.wires o) else [].
Proof. induction o as [|[] o IH]; cbn; unfold written_on in *; rewrite ?IH; destruct (i =? k)%nat; reflexivity. Qed.
Lemma seen_ep i o : of_endpoint (map (seen i) o) = []. Proof. now induction o as [|[] o IH]. Qed.
Lemma seen_at i k o : at_conn k (map (seen i) o) = if (i =? k)%nat then o else [].
Proof. induction o as [|[] o IH]; cbn; unfold at_conn in *; rewrite ?IH; destruct (i =? k)%nat; reflexivity. Qed.
Lemma seen_sent i r o : ~ In (FSent r) (map (seen i) o). Proof. rewrite in_map_iff. intros (x & X & _). destruct x; discriminate. Qed.
Lemma ended_dones o : ended o = map fst (HolderSpec.dones o). Proof. induction o as [|[] o IH]; [reflexivity|..]; cbn; unfold ended in *; now rewrite ?IH. Qed.

(** where every request is *)
Record L (t : list obs) (s : st) : Prop := {
  l_fly : forall i r w j, HolderModel.rs (tab s i) r = HolderModel.RFly w j -> fin s r = false /\ ~ In r (queue s) /\ (forall k, hand s k <> Some r) /\
    (forall k, k <> i -> HolderModel.rs (tab s k) r = HolderModel.RNew) /\ sent s r = true;
  l_done : forall i r o, HolderModel.rs (tab s i) r = HolderModel.RDone o -> fin s r = true;
  l_hand : forall i r, hand s i = Some r -> sent s r = true /\ ~ In r (queue s) /\ forall k, k <> i -> hand s k <> Some r;
  l_nd : NoDup (queue s);
  l_q : forall r, In r (queue s) -> sent s r = true;
  l_new : forall r i, fin s r = true -> In r (queue s) \/ (exists k, hand s k = Some r) -> HolderModel.rs (tab s i) r <> HolderModel.RNew;
  l_loc : forall r, sent s r = true -> fin s r = true \/ In r (queue s) \/ (exists i, hand s i = Some r) \/ exists i w j, HolderModel.rs (tab s i) r = HolderModel.RFly w j;
  l_fin : forall r, fin s r = true <-> In r (map fst (completions t));
  l_once : NoDup (map fst (completions t));
  l_wr : forall r, In r (written t) -> sent s r = true /\ ~ In r (queue s) /\ forall k, hand s k <> Some r;
  l_wonce : NoDup (written t);
  l_won : forall i r, In r (written_on i t) -> HolderModel.rs (tab s i) r <> HolderModel.RNew;
  l_wo : forall i r w j, HolderModel.rs (tab s i) r = HolderModel.RFly w j -> In r (written_on i t);
  l_sent : forall r, sent s r = true <-> In (FSent r) t }.
Ltac fl := cbn [ep tab queue hand sent fin w_ep w_tab w_tabs w_queue w_hand w_sent w_fin] in *.
Ltac eqb i j := destruct (Nat.eqb_spec i j); [subst|].

Lemma L_ep t s o p : L t s -> L (t ++ map FEp o) (w_ep s p).
Proof.
  intros []. constructor; fl; rewrite ?app_completions, ?app_written, ?ep_completions, ?ep_written, ?app_nil_r; auto.
  - intros i r. rewrite app_written_on, ep_written_on, app_nil_r. auto.
  - intros i r w j. rewrite app_written_on, ep_written_on, app_nil_r. eauto.
  - intro r. rewrite in_app_iff, l_sent0. pose proof (ep_sent r o). tauto.
Qed.
Lemma L_hand_free t s i : L t s -> hand s i = None -> L t (w_hand s i None).
Proof.
  intros [] H.
  assert (E : forall k, (if (k =? i)%nat then None else hand s k) = hand s k) by (intro k; destruct (Nat.eqb_spec k i); congruence).
  constructor; fl; auto.
  - intros. destruct (l_fly0 _ _ _ _ H0) as (?&?&?&?&?). repeat split; auto. intro k. rewrite E. auto.
  - intros k r. rewrite E. intro X. destruct (l_hand0 _ _ X) as (?&?&?). repeat split; auto. intros. rewrite E. auto.
  - intros r k F [X|[m X]]; [|rewrite E in X]; apply l_new0; eauto.
  - intros r S. destruct (l_loc0 _ S) as [X|[X|[[m X]|X]]]; auto. right. right. left. exists m. now rewrite E.
  - intros r W. destruct (l_wr0 _ W) as (?&?&?). repeat split; auto. intro k. rewrite E. auto.
Qed.
(** a step on a table, other than taking a request *)
Lemma L_on t s i e o c : L t s -> OWN (tab s i) -> (forall r, e <> HolderModel.Send r) -> (forall r code, e <> HolderModel.Local r code) ->
  HolderModel.step (tab s i) e = (o, Some c) -> L (t ++ map (seen i) o) (w_tab (w_fin s (ended o)) i c).
Proof.
  intros I O NS NL E. destruct (tab_step _ _ _ _ O NL E) as [_ [R D W|r w j id X _ _ _|r w j x _ F R ->]]; [|elim (NS r X)|].
  - destruct I. rewrite ended_dones, D. cbn [map].
    assert (RS : forall k, HolderModel.rs (if (k =? i)%nat then c else tab s k) = HolderModel.rs (tab s k)) by (intro k; eqb k i; congruence).
    constructor; fl; cbn [existsb orb]; rewrite ?app_completions, ?app_written, ?seen_completions, ?seen_written, ?D, ?W, ?app_nil_r; cbn [map]; rewrite ?app_nil_r; auto.
    + intros k r w j. rewrite RS. intro F. destruct (l_fly0 _ _ _ _ F) as (?&?&?&?&?). repeat split; auto. intros m M. rewrite RS. auto.
    + intros k r x. rewrite RS. eauto.
    + intros r k. rewrite RS. auto.
    + intros r S. destruct (l_loc0 _ S) as [X|[X|[X|(k&w&j&X)]]]; auto. right. right. right. exists k, w, j. now rewrite RS.
    + intros k r. rewrite app_written_on, seen_written_on, W, RS. destruct (i =? k)%nat; rewrite app_nil_r; auto.
    + intros k r w j. rewrite app_written_on, seen_written_on, W, RS. destruct (i =? k)%nat; rewrite app_nil_r; eauto.
    + intro r. rewrite in_app_iff, l_sent0. pose proof (seen_sent i r o). tauto.
  - destruct I. destruct (l_fly0 _ _ _ _ F) as (F1 & F2 & F3 & F4 & F5). cbn [ended flat_map app map seen].
    assert (RS : forall k q, HolderModel.rs (if (k =? i)%nat then c else tab s k) q = if ((k =? i) && (q =? r))%nat then HolderModel.RDone x else HolderModel.rs (tab s k) q).
    { intros k q. eqb k i; cbn [andb]; [|reflexivity]. rewrite R. reflexivity. }
    assert (FN : forall q, (existsb (Nat.eqb q) [r] || fin s q) = true <-> q = r \/ fin s q = true).
    { intro q. cbn [existsb]. rewrite orb_false_r, orb_true_iff, Nat.eqb_eq. tauto. }
    assert (OTH : forall q, q <> r -> (existsb (Nat.eqb q) [r] || fin s q) = fin s q).
    { intros q N. cbn [existsb]. apply Nat.eqb_neq in N. now rewrite N. }
    constructor; fl; rewrite ?app_completions, ?app_written; cbn [completions written flat_map app map fst]; rewrite ?app_nil_r; auto.
    + intros k q w' j'. rewrite RS. destruct ((k =? i) && (q =? r))%nat eqn:B; [discriminate|]. intro Q. destruct (l_fly0 _ _ _ _ Q) as (Q1&Q2&Q3&Q4&Q5).
      assert (N : q <> r). { intros ->. eqb k i; [now rewrite Nat.eqb_refl in B|]. rewrite (F4 k n) in Q. discriminate. }
      rewrite OTH by assumption. repeat split; auto. intros m M. rewrite RS. apply Nat.eqb_neq in N. rewrite N, andb_false_r. auto.
    + intros k q y. rewrite RS, FN. destruct ((k =? i) && (q =? r))%nat eqn:B; [apply andb_prop in B as [_ B]; apply Nat.eqb_eq in B; auto|]. intro Q. right. eauto.
    + intros q k. rewrite FN, RS. intros [->|Q1] Q2; [destruct Q2 as [Q2|[m Q2]]; [elim (F2 Q2)|elim (F3 m Q2)]|]. destruct (_ && _); [discriminate|auto].
    + intros q S. rewrite FN. destruct (Nat.eq_dec q r) as [->|N]; [auto|]. destruct (l_loc0 _ S) as [X|[X|[X|(k&w'&j'&X)]]]; auto.
      right. right. right. exists k, w', j'. rewrite RS. apply Nat.eqb_neq in N. now rewrite N, andb_false_r.
    + intro q. rewrite FN, l_fin0, map_app, in_app_iff. cbn [map fst In]. split; [intros [->|]|intros [|[|[]]]]; auto.
    + rewrite map_app. apply ClientProofs.snoc_nd; [assumption|]. cbn [fst]. rewrite <- l_fin0. congruence.
    + intros k q. rewrite app_written_on, RS. cbn [written_on flat_map app]. rewrite app_nil_r. destruct (_ && _); [discriminate|auto].
    + intros k q w' j'. rewrite app_written_on, RS. cbn [written_on flat_map app]. rewrite app_nil_r. destruct (_ && _); [discriminate|eauto].
    + intro q. rewrite in_app_iff, l_sent0. cbn [In]. split; [auto|]. intros [|[|[]]]; [auto|discriminate].
Qed.
(** the writer writes what it took *)
Lemma L_write t s i r o c : L t s -> OWN (tab s i) -> hand s i = Some r -> HolderModel.pre (tab s i) <> None -> HolderModel.open (tab s i) = true ->
  HolderModel.step (tab s i) (HolderModel.Send r) = (o, Some c) -> L (t ++ map (seen i) o) (w_hand (w_tab (w_fin s (ended o)) i c) i None).
Proof.
  intros I O H P OP E. destruct I. destruct (l_hand0 _ _ H) as (H1 & H2 & H3).
  assert (HD : forall k q, (if (k =? i)%nat then None else hand s k) = Some q <-> hand s k = Some q /\ q <> r).
  { intros k q. eqb k i; [split; [discriminate|]; rewrite H; intros [X Y]; injection X as ->; congruence|]. split; [|tauto]. intro X. split; [assumption|]. intros ->. exact (H3 k n X). }
  destruct (HolderModel.rs (tab s i) r) as [|w0 j0|x0] eqn:RR.
  - assert (FR : fin s r = false). { destruct (fin s r) eqn:Q; [|reflexivity]. elim (l_new0 r i Q); [right; eauto|exact RR]. }
    assert (NW : ~ In r (written t)). { intro X. destruct (l_wr0 _ X) as (_ & _ & X3). exact (X3 i H). }
    assert (NL : forall r0 code, HolderModel.Send r <> HolderModel.Local r0 code) by discriminate.
    destruct (tab_step _ _ _ _ O NL E) as [_ [R D W|r' w j id X _ R ->|r' w j x [X|X] _ _ _]]; try discriminate.
    { exfalso. cbn [HolderModel.step] in E. rewrite RR, OP in E. destruct (HolderModel.pre (tab s i)) as [[]|]; [|now elim P]. injection E as <- <-. discriminate W. }
    injection X as <-. cbn [ended flat_map app map seen].
    assert (RS : forall k q, HolderModel.rs (if (k =? i)%nat then c else tab s k) q = if ((k =? i) && (q =? r))%nat then HolderModel.RFly w j else HolderModel.rs (tab s k) q).
    { intros k q. eqb k i; cbn [andb]; [|reflexivity]. rewrite R. reflexivity. }
    assert (RN : forall k, HolderModel.rs (tab s k) r = HolderModel.RNew).
    { intro k. destruct (HolderModel.rs (tab s k) r) eqn:Q; [reflexivity| |]. - destruct (l_fly0 _ _ _ _ Q) as (_&_&X&_). elim (X i H). - apply l_done0 in Q. congruence. }
    constructor; fl; cbn [existsb orb]; rewrite ?app_completions, ?app_written; cbn [completions written flat_map app map fst]; rewrite ?app_nil_r; auto.
    + intros k q w' j'. rewrite RS. destruct ((k =? i) && (q =? r))%nat eqn:B.
      * intros _. apply andb_prop in B as [B1 B2]. apply Nat.eqb_eq in B1, B2. subst k q. repeat split; auto.
        -- intros k X. apply HD in X. tauto.
        -- intros k K. rewrite RS. apply Nat.eqb_neq in K. rewrite K. apply RN.
      * intro Q. destruct (l_fly0 _ _ _ _ Q) as (Q1&Q2&Q3&Q4&Q5). repeat split; auto.
        -- intros m X. apply HD in X. now apply (Q3 m).
        -- intros m M. rewrite RS. assert (N : q <> r) by (intros ->; rewrite RN in Q; discriminate). apply Nat.eqb_neq in N. rewrite N, andb_false_r. auto.
    + intros k q y. rewrite RS. destruct (_ && _); [discriminate|eauto].
    + intros k q X. apply HD in X as [X N]. destruct (l_hand0 _ _ X) as (X1&X2&X3). repeat split; auto. intros m M Y. apply HD in Y as [Y _]. now apply (X3 m).
    + intros q k F X. rewrite RS. destruct (_ && _); [discriminate|]. apply l_new0; [assumption|]. destruct X as [X|[m X]]; [auto|]. apply HD in X as [X _]. eauto.
    + intros q S. destruct (Nat.eq_dec q r) as [->|N].
      * right. right. right. exists i, w, j. now rewrite RS, !Nat.eqb_refl.
      * destruct (l_loc0 _ S) as [X|[X|[[k X]|(k&w'&j'&X)]]]; auto.
        -- right. right. left. exists k. apply HD. auto.
        -- right. right. right. exists k, w', j'. rewrite RS. apply Nat.eqb_neq in N. now rewrite N, andb_false_r.
    + intros q X. apply in_app_iff in X. destruct X as [X|[<-|[]]].
      * destruct (l_wr0 _ X) as (X1&X2&X3). repeat split; auto. intros k Y. apply HD in Y as [Y _]. now apply (X3 k).
      * repeat split; auto. intros k Y. apply HD in Y. tauto.
    + apply ClientProofs.snoc_nd; assumption.
    + intros k q. rewrite app_written_on, RS. cbn [written_on flat_map app]. eqb i k.
      * rewrite Nat.eqb_refl. cbn [andb]. rewrite in_app_iff. eqb q r; [discriminate|]. intros [X|[X|[]]]; [auto|congruence].
      * rewrite app_nil_r. destruct (_ && _); [discriminate|auto].
    + intros k q w' j'. rewrite app_written_on, RS. cbn [written_on flat_map app]. rewrite app_nil_r. eqb i k.
      * rewrite Nat.eqb_refl. cbn [andb]. rewrite in_app_iff. eqb q r; [intros _; right; now left|eauto].
      * assert (K : (k =? i)%nat = false) by (apply Nat.eqb_neq; congruence). rewrite K, app_nil_r. cbn [andb]. eauto.
    + intro q. rewrite in_app_iff, l_sent0. cbn [In]. split; [auto|]. intros [|[|[]]]; [auto|discriminate].
  - destruct (l_fly0 _ _ _ _ RR) as (_&_&X&_). elim (X i H).
  - pose proof (l_done0 _ _ _ RR) as FR. cbn [HolderModel.step] in E. rewrite RR in E.
    assert (E2 : o = [] /\ c = tab s i) by (destruct (HolderModel.pre (tab s i)) as [[]|]; injection E as <- <-; auto). destruct E2 as [-> ->]. clear E.
    cbn [ended flat_map map]. rewrite app_nil_r.
    assert (TB : forall k, (if (k =? i)%nat then tab s i else tab s k) = tab s k) by (intro k; eqb k i; reflexivity).
    constructor; fl; cbn [existsb orb]; auto.
    + intros k q w' j'. rewrite TB. intro Q. destruct (l_fly0 _ _ _ _ Q) as (Q1&Q2&Q3&Q4&Q5). repeat split; auto.
      * intros m X. apply HD in X. now apply (Q3 m).
      * intros m M. rewrite TB. auto.
    + intros k q y. rewrite TB. eauto.
    + intros k q X. apply HD in X as [X N]. destruct (l_hand0 _ _ X) as (X1&X2&X3). repeat split; auto. intros m M Y. apply HD in Y as [Y _]. now apply (X3 m).
    + intros q k F X. rewrite TB. apply l_new0; [assumption|]. destruct X as [X|[m X]]; [auto|]. apply HD in X as [X _]. eauto.
    + intros q S. destruct (Nat.eq_dec q r) as [->|N]; [auto|].
      destruct (l_loc0 _ S) as [X|[X|[[k X]|(k&w'&j'&X)]]]; auto.
      * right. right. left. exists k. apply HD. auto.
      * right. right. right. exists k, w', j'. now rewrite TB.
    + intros q X. destruct (l_wr0 _ X) as (X1&X2&X3). repeat split; auto. intros k Y. apply HD in Y as [Y _]. now apply (X3 k).
    + intros k q. rewrite TB. auto.
    + intros k q w' j'. rewrite TB. eauto.
Qed.
Lemma L_take t s i r q : L t s -> hand s i = None -> queue s = r :: q -> L t (w_hand (w_queue s q) i (Some r)).
Proof.
  intros [] H Q. rewrite Q in *. inversion l_nd0 as [|? ? ND1 ND2]; subst.
  assert (HD : forall k p, (if (k =? i)%nat then Some r else hand s k) = Some p <-> hand s k = Some p \/ (k = i /\ p = r)).
  { intros k p. eqb k i; [rewrite H; split; [intro X; injection X; auto|intros [X|[_ ->]]; [discriminate|reflexivity]]|tauto]. }
  assert (NH : forall k, hand s k <> Some r) by (intros k X; destruct (l_hand0 _ _ X) as (_&X2&_); apply X2; now left).
  constructor; fl; auto.
  - intros k p w j F. destruct (l_fly0 _ _ _ _ F) as (Q1&Q2&Q3&Q4&Q5). cbn [In] in Q2. repeat split; auto. intros m X. apply HD in X as [X|[_ ->]]; [now apply (Q3 m)|tauto].
  - intros k p X. apply HD in X as [X|[-> ->]].
    + destruct (l_hand0 _ _ X) as (X1&X2&X3). cbn [In] in X2. repeat split; auto. intros m M Y. apply HD in Y as [Y|[-> ->]]; [now apply (X3 m)|]. tauto.
    + repeat split; [apply l_q0; now left|assumption|]. intros m M Y. apply HD in Y as [Y|[? _]]; [now apply (NH m)|congruence].
  - intros p X. apply l_q0. now right.
  - intros p k F X. apply l_new0; [assumption|]. destruct X as [X|[m X]]; [left; now right|]. apply HD in X as [X|[-> ->]]; [eauto|left; now left].
  - intros p S. destruct (l_loc0 _ S) as [X|[[<-|X]|[[k X]|X]]]; auto; right; right; left; [exists i|exists k]; apply HD; auto.
  - intros p X. destruct (l_wr0 _ X) as (X1&X2&X3). cbn [In] in X2. repeat split; auto. intros k Y. apply HD in Y as [Y|[_ ->]]; [now apply (X3 k)|tauto].
Qed.
Lemma L_send t s r : L t s -> sent s r = false -> fin s r = false -> L (t ++ [FSent r]) (w_sent (w_queue s (queue s ++ [r])) r).
Proof.
  intros [] S F.
  assert (SN : forall q, ((q =? r)%nat || sent s q) = true <-> q = r \/ sent s q = true) by (intro q; rewrite orb_true_iff, Nat.eqb_eq; tauto).
  assert (NQ : ~ In r (queue s)) by (intro X; apply l_q0 in X; congruence).
  assert (IQ : forall q, In q (queue s ++ [r]) <-> In q (queue s) \/ q = r) by (intro q; rewrite in_app_iff; cbn [In]; firstorder).
  assert (NEQ : forall q, sent s q = true -> q <> r) by (intros q X ->; congruence).
  constructor; fl; rewrite ?app_completions, ?app_written; cbn [completions written flat_map app]; rewrite ?app_nil_r; auto.
  - intros k p w j X. destruct (l_fly0 _ _ _ _ X) as (Q1&Q2&Q3&Q4&Q5). rewrite IQ, SN. repeat split; auto. intros [Y| ->]; [tauto|congruence].
  - intros k p X. destruct (l_hand0 _ _ X) as (X1&X2&X3). rewrite IQ, SN. repeat split; auto. intros [Y| ->]; [tauto|congruence].
  - apply ClientProofs.snoc_nd; assumption.
  - intros p X. apply IQ in X. apply SN. destruct X; auto.
  - intros p k X Y. apply l_new0; [assumption|]. rewrite IQ in Y. destruct Y as [[Y| ->]|Y]; [auto|congruence|auto].
  - intros p X. apply SN in X. rewrite IQ. destruct X as [->|X]; [auto|]. destruct (l_loc0 _ X) as [Y|[Y|Y]]; auto.
  - intros p X. destruct (l_wr0 _ X) as (X1&X2&X3). rewrite IQ, SN. repeat split; auto. intros [Y| ->]; [tauto|congruence].
  - intros i p. rewrite app_written_on. cbn [written_on flat_map]. rewrite app_nil_r. auto.
  - intros i p w j. rewrite app_written_on. cbn [written_on flat_map]. rewrite app_nil_r. eauto.
  - intro p. rewrite SN, in_app_iff, l_sent0. cbn [In]. split; [intros [->|X]; auto|]. intros [X|[X|[]]]; [auto|]. injection X as ->. auto.
Qed.
(** a request completes outside every connection: [g] says what the tables make of it *)
Lemma L_local t s r code : L t s -> (forall i, OWN (tab s i)) -> fin s r = false ->
  L (t ++ [FDone ByUser r (HolderModel.Elsewhere code)]) (w_fin (w_tabs s (fun i => local (tab s i) r code)) [r]).
Proof.
  intros [] O F.
  assert (RS : forall k q, HolderModel.rs (local (tab s k) r code) q = if (q =? r)%nat then HolderModel.RDone (HolderModel.Elsewhere code) else HolderModel.rs (tab s k) q).
  { intros k q. unfold local. destruct (local_step (tab s k) r code (O k)) as (c' & E & _ & R & _); [intros x X; apply l_done0 in X; congruence|]. rewrite E. cbn [snd]. now rewrite R. }
  assert (FN : forall q, (existsb (Nat.eqb q) [r] || fin s q) = true <-> q = r \/ fin s q = true).
  { intro q. cbn [existsb]. rewrite orb_false_r, orb_true_iff, Nat.eqb_eq. tauto. }
  assert (OTH : forall q, q <> r -> (existsb (Nat.eqb q) [r] || fin s q) = fin s q).
  { intros q N. cbn [existsb]. apply Nat.eqb_neq in N. now rewrite N. }
  constructor; fl; rewrite ?app_completions, ?app_written; cbn [completions written flat_map app map fst]; rewrite ?app_nil_r; auto.
  - intros k q w' j'. rewrite RS. eqb q r; [discriminate|]. intro Q. destruct (l_fly0 _ _ _ _ Q) as (Q1&Q2&Q3&Q4&Q5). rewrite OTH by assumption. repeat split; auto.
    intros m M. rewrite RS. apply Nat.eqb_neq in n. rewrite n. auto.
  - intros k q y. rewrite RS, FN. eqb q r; [auto|]. eauto.
  - intros q k. rewrite FN, RS. eqb q r; [discriminate|]. intros [X|X] Y; [congruence|auto].
  - intros q S. rewrite FN. destruct (Nat.eq_dec q r) as [->|N]; [auto|]. destruct (l_loc0 _ S) as [X|[X|[X|(k&w'&j'&X)]]]; auto.
    right. right. right. exists k, w', j'. rewrite RS. apply Nat.eqb_neq in N. now rewrite N.
  - intro q. rewrite FN, l_fin0, map_app, in_app_iff. cbn [map fst In]. split; [intros [->|]|intros [|[|[]]]]; auto.
  - rewrite map_app. apply ClientProofs.snoc_nd; [assumption|]. cbn [fst]. rewrite <- l_fin0. congruence.
  - intros k q. rewrite app_written_on, RS. cbn [written_on flat_map app]. rewrite app_nil_r. eqb q r; [discriminate|auto].
  - intros k q w' j'. rewrite app_written_on, RS. cbn [written_on flat_map app]. rewrite app_nil_r. eqb q r; [discriminate|eauto].
  - intro q. rewrite in_app_iff, l_sent0. cbn [In]. split; [auto|]. intros [|[|[]]]; [auto|discriminate].
Qed.
Lemma in_failing s k r : In r (failing s k) <-> In r (firstn k (queue s)) /\ fin s r = false.
Proof. unfold failing. rewrite filter_In, negb_true_iff. tauto. Qed.
Lemma in_firstn_skipn {A} (l : list A) k x : NoDup l -> In x (firstn k l) -> ~ In x (skipn k l).
Proof.
  intros N H1 H2. rewrite <- (firstn_skipn k l) in N. revert N H1 H2. generalize (firstn k l) (skipn k l). intros a b. induction a as [|y a IH]; intros N H1 H2; [destruct H1|].
  cbn [app] in N. inversion N as [|? ? N1 N2]; subst. destruct H1 as [->|H1]; [apply N1; apply in_app_iff; auto|auto].
Qed.
Lemma NoDup_skipn {A} (l : list A) k : NoDup l -> NoDup (skipn k l).
Proof. revert k. induction l as [|x l IH]; intros [|k] N; cbn [skipn]; auto. inversion N; auto. Qed.
Lemma NoDup_firstn {A} (l : list A) k : NoDup l -> NoDup (firstn k l).
Proof.
  revert k. induction l as [|x l IH]; intros [|k] N; cbn [firstn]; auto; [constructor|]. inversion N; subst. constructor; [|auto]. intro X. apply H1.
  rewrite <- (firstn_skipn k l). apply in_app_iff. now left.
Qed.
Lemma NoDup_both {A} (a b : list A) : NoDup a -> NoDup b -> (forall x, In x a -> ~ In x b) -> NoDup (a ++ b).
Proof.
  intros N M D. induction a as [|x a IH]; [exact M|]. inversion N; subst. cbn [app]. constructor.
  - rewrite in_app_iff. intros [X|X]; [auto|]. apply (D x); [now left|exact X].
  - apply IH; [assumption|]. intros y Y. apply D. now right.
Qed.
Lemma completions_q l : completions (map (fun r => FDone ByQueue r HolderModel.IOError) l) = map (fun r => (r, HolderModel.IOError)) l.
Proof. induction l; [reflexivity|]. cbn. unfold completions in *. now f_equal. Qed.
Lemma written_q l : written (map (fun r => FDone ByQueue r HolderModel.IOError) l) = []. Proof. now induction l. Qed.
Lemma written_on_q i l : written_on i (map (fun r => FDone ByQueue r HolderModel.IOError) l) = []. Proof. now induction l. Qed.
Lemma ep_q l : of_endpoint (map (fun r => FDone ByQueue r HolderModel.IOError) l) = []. Proof. now induction l. Qed.
Lemma at_q i l : at_conn i (map (fun r => FDone ByQueue r HolderModel.IOError) l) = []. Proof. now induction l. Qed.
Lemma L_all t s k : L t s -> L (t ++ map (fun r => FDone ByQueue r HolderModel.IOError) (failing s k)) (w_queue (w_fin s (failing s k)) (skipn k (queue s))).
Proof.
  intros [].
  assert (FN : forall q, (existsb (Nat.eqb q) (failing s k) || fin s q) = true <-> In q (failing s k) \/ fin s q = true).
  { intro q. rewrite orb_true_iff, existsb_exists. split; [intros [(x & X1 & X2)|X]|intros [X|X]]; auto; [apply Nat.eqb_eq in X2; subst; auto|]. left. exists q. split; [assumption|apply Nat.eqb_refl]. }
  assert (SK : forall q, In q (skipn k (queue s)) -> In q (queue s)) by (intros q X; rewrite <- (firstn_skipn k (queue s)); apply in_app_iff; auto).
  assert (FQ : forall q, In q (failing s k) -> In q (queue s)).
  { intros q X. apply in_failing in X as [X _]. rewrite <- (firstn_skipn k (queue s)). apply in_app_iff; auto. }
  constructor; fl; rewrite ?app_completions, ?app_written, ?completions_q, ?written_q, ?app_nil_r; auto.
  - intros i r w j X. destruct (l_fly0 _ _ _ _ X) as (Q1&Q2&Q3&Q4&Q5). repeat split; auto. apply not_true_is_false. rewrite FN. intros [Y|Y]; [auto|congruence].
  - intros i r o X. apply FN. right. eauto.
  - intros i r X. destruct (l_hand0 _ _ X) as (X1&X2&X3). repeat split; auto.
  - now apply NoDup_skipn.
  - intros r i X Y. apply FN in X as [X|X].
    + destruct Y as [Y|[m Y]].
      * apply in_failing in X as [X _]. elim (in_firstn_skipn _ _ _ l_nd0 X Y).
      * apply FQ in X. destruct (l_hand0 _ _ Y) as (_&Y2&_). tauto.
    + apply l_new0; [assumption|]. destruct Y; auto.
  - intros r S. rewrite FN. destruct (l_loc0 _ S) as [X|[X|X]]; auto. destruct (fin s r) eqn:F; [auto|]. rewrite <- (firstn_skipn k (queue s)) in X. apply in_app_iff in X as [X|X]; [|auto].
    left. left. apply in_failing. auto.
  - intro r. rewrite FN, map_app, in_app_iff, l_fin0, map_map. cbn [fst]. rewrite map_id. tauto.
  - rewrite map_app, map_map. cbn [fst]. rewrite map_id. apply NoDup_both; [assumption| |].
    + apply NoDup_filter. now apply NoDup_firstn.
    + intros x X Y. apply in_failing in Y as [_ Y]. apply l_fin0 in X. congruence.
  - intros r X. destruct (l_wr0 _ X) as (X1&X2&X3). repeat split; auto.
  - intros i r. rewrite app_written_on, written_on_q, app_nil_r. auto.
  - intros i r w j. rewrite app_written_on, written_on_q, app_nil_r. eauto.
  - intro r. rewrite in_app_iff, l_sent0. split; [auto|]. intros [X|X]; [auto|]. apply in_map_iff in X as (x & X & _). discriminate.
Qed.
