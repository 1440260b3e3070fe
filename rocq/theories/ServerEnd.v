(** The end of a server connection: cancellation, capacity of the queue, quiescence, termination, crashes. *)
From Coq Require Import ZArith List Bool Arith Lia Permutation.
Import ListNotations.
From Verif Require Import ServerModel ServerSpec ServerProofs ServerTrace ServerIds.
Open Scope Z_scope.

(** ** after a write error *)
Definition sent_before_error (t : list obs) (r : rid) : Prop := exists p q, t = p ++ OWriteErr :: q /\ In r (sends p).
Lemma sbe_app t o r : ~ In OWriteErr o -> sent_before_error (t ++ o) r -> sent_before_error t r.
Proof.
  intros N (p & q & E & H). revert p E H. induction t as [|a t IH]; intros p E H.
  - cbn in E. subst o. elim N. apply in_or_app. right. now left.
  - destruct p as [|b p]; cbn in E; [easy|]. injection E as <- E. destruct (in_dec Nat.eq_dec r (sends p)) as [Hp|Hp].
    + destruct (IH p E Hp) as (p' & q' & E' & H'). exists (a :: p'), q'. split; [cbn; now f_equal|]. cbn. apply in_or_app. now right.
    + cbn in H. apply in_app_or in H. destruct H as [H|H]; [|contradiction].
      assert (exists p' q', t = p' ++ OWriteErr :: q') as (p' & q' & ->).
      { assert (In OWriteErr t) as Q; [|apply in_split in Q; destruct Q as (u & v & ->); now exists u, v].
        assert (In OWriteErr (t ++ o)) as Q by (rewrite E; apply in_or_app; right; now left). apply in_app_or in Q. tauto. }
      exists (a :: p'), q'. split; [reflexivity|]. cbn. apply in_or_app. now left.
Qed.
Definition KI (s : st) (t : list obs) : Prop :=
  csWrite s = true -> kp s <> KWrite -> distinct_ids t -> forall r, sent_before_error t r -> comp s r = true \/ In r (krest s).
Lemma KI_eff m s t e o s' : SI s -> RI m s t -> DI s t -> KI s t -> eff s e o s' -> KI s' (t ++ o).
Proof.
  intros I R D K H. unfold KI in *.
  assert (QUIET : forall s' o, csWrite s' = csWrite s -> (kp s' <> KWrite -> kp s <> KWrite) -> (forall r, comp s r = true -> comp s' r = true) -> (forall r, In r (krest s) -> comp s' r = true \/ In r (krest s')) -> ~ In OWriteErr o ->
    csWrite s' = true -> kp s' <> KWrite -> distinct_ids (t ++ o) -> forall r, sent_before_error (t ++ o) r -> comp s' r = true \/ In r (krest s')).
  { intros s2 o2 Q1 Q2 Q3 Q4 O C Kp Di r B. apply distinct_app in Di. apply sbe_app in B; [|exact O]. rewrite Q1 in C. destruct (K C (Q2 Kp) Di r B) as [Q|Q]; [left; now apply Q3|now apply Q4]. }
  destruct H; try (apply QUIET; unfold krest; fields; try reflexivity; rewrite ?H; try easy; try (intros ? Q; rewrite ?updn_get; try destruct (Nat.eqb_spec _ _); cbn [In] in *; try (tauto || congruence)); try (intro Q; cbn in Q; intuition congruence); fail).
  - (* E_comp *) apply QUIET; unfold krest; fields; try reflexivity; try easy; try tauto.
    + intros r' Q. rewrite updn_get. now destruct (Nat.eqb _ _).
    + intros [Q|[]]. discriminate.
  - (* E_fail *) fields. intros C. destruct (si_w1 _ I) as [_ Q]; [intro W; now rewrite W in H|]. congruence.
  - (* E_kwrite *) fields. congruence.
  - (* E_ksnap *) fields. intros C _ Di r B. rewrite app_nil_r in *. unfold krest. fields. destruct (comp s r) eqn:Cr; [now left|right].
    assert (Hs : In r (sends t)) by (destruct B as (p & q & -> & B); rewrite sends_app; apply in_or_app; now left).
    apply in_map_iff. exists (idOf s r, r). split; [reflexivity|]. apply (di_fly _ _ D Di); [congruence|exact Hs|]. now apply (not_answered m s t).
  - (* E_kskip *) apply QUIET; unfold krest; fields; try reflexivity; rewrite ?H; try easy. intros r' [<-|Q]; tauto.
  - (* E_kcancel *) apply QUIET; unfold krest; fields; try reflexivity; rewrite ?H; try easy.
    + intros r' Q. rewrite updn_get. now destruct (Nat.eqb _ _).
    + intros r' [<-|Q]; [left; rewrite updn_get; now rewrite Nat.eqb_refl|tauto].
    + intros [Q|[]]. discriminate.
  - (* E_unbk *) apply QUIET; unfold krest; fields; try reflexivity; rewrite ?H0; try easy; tauto.
Qed.
Lemma KI_reach m s t : reach m s t -> KI s t.
Proof.
  intro R. enough (KI s t /\ DI s t) by tauto. revert s t R. apply (reach_ind_eff m (fun s t => KI s t /\ DI s t)).
  - split; [discriminate|apply (DI_reach m); constructor].
  - intros s t e o s' I R [K D] H. split; [now apply (KI_eff m s t e)|now apply (DI_eff m s t e)].
Qed.
Lemma closed_canceled m s t : reach m s t -> distinct_ids t -> In OClosed t -> forall r, sent_before_error t r -> comp s r = true.
Proof.
  intros R Di C r B. pose proof (DI_reach _ _ _ R) as D. apply (di_cl _ _ D) in C. pose proof (SI_reach _ _ _ R) as I. pose proof (si_k1 _ I) as K1. rewrite C in K1.
  destruct (KI_reach _ _ _ R) with (r := r) as [Q|Q]; try assumption; [tauto|congruence|]. unfold krest in Q. now rewrite C in Q.
Qed.

(** ** the queue does not fill up *)
Lemma filter_both l : (length (filter for_request l) + length (filter for_ping l) = length l)%nat.
Proof. induction l as [|x l IH]; [reflexivity|]. unfold for_ping in *. cbn. destruct (for_request x); cbn; lia. Qed.
Lemma queue_count m s t : reach m s t -> (length (writes t) + length (out s) + length (blkl s) + length (waits s) + length (kresp s) + match rp s with RPing _ => 1 | _ => 0 end <= length (reqs t) + length (pings t))%nat.
Proof.
  intro R. destruct (QI_reach _ _ _ R) as [lost [q1 q2 q3 q4 q5]]. pose proof (RI_reach _ _ _ R) as I.
  assert (L : (length (answers t) + length (drops t) + length (waits s) + length (kresp s) = length (comps t))%nat) by (pose proof (Permutation_length (ri_perm _ _ _ I)) as P; rewrite !app_length, map_length in P; lia).
  assert (C : (length (comps t) <= length (reqs t))%nat).
  { rewrite <- (ri_len _ _ _ I). rewrite <- (map_length crid). rewrite <- (seq_length (nreq s) 0). apply NoDup_incl_length; [apply I|]. intros r H. apply (ri_comp _ _ _ I) in H. apply (ri_lt _ _ _ I) in H. apply in_seq. lia. }
  pose proof (filter_both (queue s t lost)) as F. apply (f_equal (@length res)) in q2, q3. rewrite app_length in q2. unfold queue in *. rewrite !app_length in F. apply (f_equal (@length res)) in q4. rewrite map_length, app_length in q4. destruct (rp s); cbn in q4; lia.
Qed.
Lemma at_most_now t : at_most_128 t -> (length (reqs t) + length (pings t) <= length (writes t) + 128)%nat.
Proof. intro A. apply (A t []). now rewrite app_nil_r. Qed.
Lemma room m s t : reach m s t -> at_most_128 t -> out_full s = true -> blk s = None /\ waits s = [] /\ kresp s = [] /\ forall id, rp s <> RPing id.
Proof.
  intros R A F. pose proof (queue_count _ _ _ R) as Q. apply at_most_now in A. unfold out_full, OutCap in F. apply Nat.leb_le in F. unfold blkl in Q.
  destruct (blk s) as [[]|]; cbn in Q; [lia|]. destruct (waits s); cbn in Q; [|lia]. destruct (kresp s); cbn in Q; [|lia]. repeat split; try reflexivity. intros id E. rewrite E in Q. lia.
Qed.
Lemma at_most_app t o : at_most_128 (t ++ o) -> at_most_128 t.
Proof. intros A p q E. apply (A p (q ++ o)). rewrite E. now rewrite <- app_assoc. Qed.
Lemma never_blocked m s t : reach m s t -> at_most_128 t -> blk s = None.
Proof.
  intro R. enough ((at_most_128 t -> blk s = None) /\ reach m s t) by tauto. induction R as [|s t e o s' R [IH _] E]; [split; [reflexivity|constructor]|].
  assert (R' : reach m s' (t ++ o)) by now apply (reachS m s t e). split; [|exact R']. intro A. specialize (IH (at_most_app _ _ A)).
  pose proof (room _ _ _ R (at_most_app _ _ A)) as Rm.
  pose proof (SI_reach _ _ _ R) as I. apply step_eff in E; [|exact I]. destruct E; fields; try assumption; try reflexivity.
  - destruct (Rm H3) as (_ & _ & Q & _). unfold kresp in Q. now rewrite H in Q.
  - destruct (Rm H3) as (_ & Q & _). rewrite Q in H0. destruct n; discriminate.
Qed.

(** ** quiescence *)
Definition all_done (s : st) : Prop := rp s = RDone /\ wp s = WDone /\ kp s = KDone /\ waits s = [] /\ blk s = None.
(** every goroutine waits, and at least one of them for the network or a handler *)
Definition idle (s : st) : Prop :=
  kp s = KRecv /\ wp s = WRecv /\ out s = [] /\ waits s = [] /\ blk s = None /\ ((rp s = RIdle /\ eof s = false) \/ (rp s = RDone /\ inFly s <> [])).
(** out is full, someone waits to put an answer into it, and the write loop will not take anything *)
Definition jammed (s : st) : Prop := out_full s = true /\ (wp s = WDone \/ wp s = WDef) /\ (blk s <> None \/ exists id, rp s = RPing id).
Lemma stuck_cases m s t : reach m s t -> stuck s -> all_done s \/ idle s \/ jammed s.
Proof.
  intros R S. pose proof (SI_reach _ _ _ R) as I. pose proof I as [b1 nd r1 r2 r3 r4 w1 w2 w3 k1 k2 k3 e1 e2 c h].
  pose proof (S Reader Logic.I) as SR. pose proof (S Writer Logic.I) as SW. pose proof (S Control Logic.I) as SC. pose proof (S Unblock Logic.I) as SU. pose proof (S (Responder 0) Logic.I) as SP.
  cbn [step] in *.
  assert (CH : forall a b : st, ok a = ([], Some b) -> a = b) by (intros a b E; now injection E).
  assert (RP : forall v, ok (w_rp s v) = ([], Some s) -> v = rp s) by (intros v E; apply CH, (f_equal rp) in E; exact E).
  assert (WP : forall v, ok (w_wp s v) = ([], Some s) -> v = wp s) by (intros v E; apply CH, (f_equal wp) in E; exact E).
  assert (KP : forall v, ok (w_kp s v) = ([], Some s) -> v = kp s) by (intros v E; apply CH, (f_equal kp) in E; exact E).
  destruct (blk s) as [[x k]|] eqn:B.
  - (* someone holds the lock *) right. right. assert (CL : closed s = false) by (destruct (closed s) eqn:C; [discriminate|reflexivity]).
    rewrite CL in SU. destruct (out_full s) eqn:F.
    + split; [exact F|]. split; [|left; congruence]. destruct (out s) as [|y l] eqn:O; [unfold out_full in F; rewrite O in F; discriminate|].
      unfold step_writer in SW. rewrite ?O, ?B in SW. destruct (wp s) eqn:W; try (exfalso; (apply WP in SW; congruence) || (apply CH, (f_equal wp) in SW; fields; congruence) || discriminate); try tauto.
      * exfalso. destruct (e1 (or_introl eq_refl)) as (_ & _ & Q & _). congruence.
      * exfalso. destruct (notes_full s) eqn:NF; [|apply CH, (f_equal wp) in SW; fields; congruence].
        destruct (w1 ltac:(discriminate)) as [N1 _]. unfold notes_full in NF. apply Nat.leb_le in NF. destruct (notes s) as [|n1 [|n2 ns]]; cbn in NF; try lia.
        assert (In NEmpty (n1 :: n2 :: ns)) as NE.
        { destruct n1; [elim N1; now left| |now left]. destruct n2; [elim N1; right; now left| |right; now left]. inversion nd as [|? ? Q _]. elim Q. now left. }
        destruct (e1 (or_intror NE)) as (_ & _ & Q & _). congruence.
    + exfalso. apply CH, (f_equal out) in SU. destruct k; [destruct (kp _)|]; fields; apply (f_equal (@length res)) in SU; rewrite app_length in SU; cbn in SU; lia.
  - (* the lock is free *)
    assert (WT : waits s = []).
    { destruct (waits s) as [|x l] eqn:W; [reflexivity|]. cbn in SP. unfold respond in SP. fields. destruct (ihas _ _); [|discriminate]. rewrite b1 in SP. destruct (closed s); [discriminate|]. destruct (out_full _); discriminate. }
    assert (KK : (kp s = KRecv /\ notes s = []) \/ kp s = KDone).
    { unfold step_control in SC. rewrite B in SC. destruct (kp s) as [| | |l|x l|l|] eqn:K; try tauto; [|exfalso..].
      - destruct (notes s) as [|[] l] eqn:N; [tauto|exfalso..]; try (apply CH, (f_equal kp) in SC; fields; congruence).
        unfold k_close in SC. fields. destruct (closed s); [discriminate|]. unfold k_check in SC. fields. rewrite k1 in SC. apply CH, (f_equal notes) in SC. fields. rewrite N in SC. apply (f_equal (@length note)) in SC. cbn in SC. lia.
      - assert (forall s2, k_check s2 <> ([], Some s)) as NC. { intros s2 Q. unfold k_check in Q. destruct (csRead s2 && csWrite s2); [discriminate|]. apply CH, (f_equal kp) in Q. fields. congruence. }
        fields. rewrite b1 in SC. unfold k_close in SC. fields. destruct (inFly s); [|now apply NC in SC]. destruct (out s); [|now apply NC in SC]. destruct (closed s); [discriminate|]. now apply NC in SC.
      - apply KP in SC. congruence.
      - destruct l as [|r l].
        + unfold k_check in SC. destruct (csRead _ && csWrite _); [discriminate|]. apply CH, (f_equal kp) in SC. fields. congruence.
        + destruct (comp s r); [|discriminate]. apply KP in SC. injection SC as SC. apply (f_equal (@length rid)) in SC. cbn in SC. lia.
      - unfold respond in SC. destruct (ihas _ _); [|discriminate]. fields. rewrite b1 in SC. destruct (closed s); [discriminate|]. destruct (out_full _); fields; rewrite ?B in SC; discriminate.
      - destruct k2 as [x Q]. congruence. }
    assert (WW : (wp s = WRecv /\ out s = [] /\ closed s = false) \/ wp s = WDone \/ notes_full s = true).
    { unfold step_writer in SW. rewrite B, b1 in SW. destruct (wp s) eqn:W; try tauto.
      - exfalso. destruct (out s); [destruct (closed s); apply WP in SW; congruence|apply CH, (f_equal wp) in SW; fields; congruence].
      - exfalso. revert SW; match goal with |- (if ?c then _ else _) = _ -> _ => destruct c end; intro SW; apply WP in SW; congruence.
      - exfalso. apply WP in SW; congruence.
      - destruct (out s) eqn:O; [|exfalso; apply CH, (f_equal wp) in SW; fields; congruence]. destruct (closed s); [exfalso; apply WP in SW; congruence|]. now left.
      - discriminate.
      - destruct (notes_full s); [tauto|]. exfalso. apply CH, (f_equal wp) in SW; fields; congruence.
      - exfalso. apply WP in SW; congruence.
      - destruct (notes_full s); [tauto|]. exfalso. apply CH, (f_equal wp) in SW; fields; congruence. }
    destruct KK as [[K N]|K].
    + assert (notes_full s = false) as NF by (unfold notes_full; now rewrite N). rewrite K in *.
      assert (RR : (rp s = RIdle /\ eof s = false) \/ (exists id, rp s = RPing id /\ out_full s = true) \/ rp s = RDone).
      { unfold step_reader in SR. rewrite B, NF in SR. destruct (rp s) eqn:P; try tauto.
        - destruct (eof s); [exfalso; apply RP in SR; congruence|tauto].
        - destruct (closed s); [discriminate|]. destruct (out_full s) eqn:F; [|discriminate]. right. left. now exists id.
        - discriminate.
        - exfalso. apply CH, (f_equal rp) in SR; fields; congruence. }
      destruct WW as [(W & O & CL)|[W|W]]; [| |congruence].
      * right. left. split; [exact K|]. split; [exact W|]. split; [exact O|]. split; [exact WT|]. split; [exact B|].
        destruct RR as [RR|[(id & P & F)|RR]]; [now left|unfold out_full in F; rewrite O in F; discriminate|right]. split; [exact RR|]. intro IF.
        destruct (r2 RR) as [Q|[Q|Q]]; [rewrite N in Q; elim Q|congruence|]. rewrite W in h. specialize (h Q IF O eq_refl). congruence.
      * destruct (w2 W) as [Q|Q]; [rewrite N in Q; elim Q|]. specialize (k3 Q). destruct RR as [[P E]|[(id & P & F)|P]].
        -- exfalso. destruct k3 as [Q2|Q2]; [|congruence]. rewrite Q, Q2 in k1. discriminate.
        -- right. right. split; [exact F|]. split; [now left|]. right. now exists id.
        -- exfalso. destruct (r2 P) as [Q2|[Q2|Q2]]; [rewrite N in Q2; elim Q2|congruence|]. rewrite Q, Q2 in k1. discriminate.
    + left. rewrite K in k1. destruct k1 as [Q1 Q2]. split; [|split; [|split; [exact K|split; [exact WT|exact B]]]].
      * destruct (rp s) eqn:P; try reflexivity; destruct r1 as (_ & _ & Q); try discriminate; congruence.
      * destruct (wp s) eqn:P; try reflexivity; destruct w1 as (_ & Q); try discriminate; congruence.
Qed.

(** ** the goroutines stop by themselves *)
Definition mr (p : rpc) : nat := match p with RDone => 0 | RNote => 12 | RIdle => 13 | RPing _ => 30 | RIns _ => 39 end.
Definition mw (p : wpc) : nat := match p with WDone => 0 | WNote => 12 | WEnd => 13 | WRecv => 14 | WFlush => 15 | WEmpty => 25 | WDef => 26 | WSel => 27 | WWrite _ => 28 end.
Definition mk (p : kpc) : nat := match p with KRead | KWrite => 5 | KCancel l | KBlock l => 25 * length l + 2 | KResp _ l => 25 * length l + 20 | KRecv | KDone => 0 end.
Definition mf (s : st) : nat := if csWrite s then match kp s with KWrite => 25 * length (inFly s) | _ => 0 end else 25 * length (inFly s).
Definition work (s : st) : nat :=
  mr (rp s) + mw (wp s) + mk (kp s) + mf s + 10 * length (notes s) + 16 * length (out s) + 17 * length (blkl s) + 18 * length (waits s).
Lemma idel_length m k : (length (idel m k) <= length m)%nat.
Proof. unfold idel. induction m as [|e m IH]; cbn; [lia|]. destruct (negb _); cbn; lia. Qed.
Lemma iset_length m k r : (length (iset m k r) <= length m + 1)%nat.
Proof. unfold iset. rewrite app_length. pose proof (idel_length m k). cbn. lia. Qed.
Lemma take_nth_length {A} n (l : list A) x l' : take_nth n l = Some (x, l') -> length l = Datatypes.S (length l').
Proof. intro H. apply take_nth_perm in H. now rewrite (Permutation_length H). Qed.
Lemma work_eff s e o s' : SI s -> eff s e o s' -> internal e -> s' = s \/ (work s' < work s)%nat.
Proof.
  intros I H Hi. destruct H; try (now elim Hi); [now left|..]; right; unfold work, mf, blkl; fields; rewrite ?H, ?H0, ?H1, ?H2; cbn [mr mw mk length]; rewrite ?app_length; cbn [length].
  all: try (match goal with W : wp _ = _ \/ wp _ = _ |- _ => destruct W as [W|W]; rewrite W; cbn [mw] end).
  all: try (match goal with T : take_nth _ _ = Some _ |- _ => apply take_nth_length in T; rewrite T end).
  all: try match goal with |- context [iset ?a ?b ?c] => pose proof (iset_length a b c) end.
  all: try match goal with |- context [idel ?a ?b] => pose proof (idel_length a b) end.
  all: try (match goal with |- context [csWrite ?s] => destruct (csWrite s); try (destruct (kp s)) end; cbn [mk] in *; lia).
  all: try lia.
  - (* E_kwrite *) assert (csWrite s = false) as ->; [|lia]. destruct (csWrite s) eqn:C; [|reflexivity]. elim (si_w3 _ I C). rewrite H0. now left.
  - (* E_ksnap *) pose proof (si_k1 _ I) as K. rewrite H in K. rewrite K, map_length. lia.
Qed.
Lemma terminates m s t es : reach m s t -> effective s es -> (length es <= work s)%nat.
Proof.
  revert s t. induction es as [|e es IH]; intros s t R E; [cbn; lia|]. cbn in E. destruct E as (Hi & o & s' & St & N & E).
  specialize (IH s' (t ++ o) (reachS _ _ _ _ _ _ R St) E). pose proof (SI_reach _ _ _ R) as I. apply step_eff in St; [|exact I].
  destruct (work_eff _ _ _ _ I St Hi) as [->|Q]; [now elim N|]. cbn. lia.
Qed.

(** ** crashes *)
(** the control loop handles the end of reading while the write loop is between its select and its lock *)
Definition race (s : st) (e : ev) : Prop := e = Control /\ kp s = KRead /\ wp s = WDef.
Lemma crash_only s e o : SI s -> step s e = (o, None) -> o = [OPanic CloseOfClosed] /\ e = Control /\ kp s = KRecv /\ closed s = true /\ exists l, notes s = NEmpty :: l.
Proof.
  intros I E. pose proof I as [b1 nd r1 r2 r3 r4 w1 w2 w3 k1 k2 k3 e1 e2 c h].
  assert (RS : forall x k o, blk s = None -> respond s x k <> (o, None)).
  { intros x k o2 B Q. unfold respond in Q. destruct (ihas _ _) eqn:H; [|discriminate]. fields. rewrite b1 in Q. destruct (closed s) eqn:C; [|destruct (out_full _); discriminate].
    destruct (c eq_refl) as (_ & Q2 & _). rewrite Q2 in H. discriminate. }
  destruct e; cbn [step] in E; try discriminate.
  - destruct (rp s); discriminate.
  - destruct (rp s); discriminate.
  - destruct (_ && _); discriminate.
  - destruct (wp s); discriminate.
  - (* Reader *) unfold step_reader in E. destruct (rp s) eqn:P; try discriminate.
    + destruct (eof s); discriminate.
    + destruct (closed s) eqn:C; [|destruct (out_full s); discriminate]. destruct (c eq_refl) as (_ & _ & _ & _ & Q). congruence.
    + destruct (blk s); discriminate.
    + destruct (notes_full s); discriminate.
  - (* Writer *) unfold step_writer in E. rewrite b1 in E. destruct (wp s) eqn:P; try discriminate.
    + destruct (out s); [destruct (closed s)|]; discriminate.
    + destruct (blk s); [discriminate|]. revert E. match goal with |- (if ?c then _ else _) = _ -> _ => destruct c end; discriminate.
    + destruct (out s); [destruct (closed s)|]; discriminate.
    + destruct (notes_full s); discriminate.
    + destruct (notes_full s); discriminate.
  - (* Control *) unfold step_control in E. destruct (kp s) as [| | |l|x l|l|] eqn:K; try discriminate.
    + destruct (notes s) as [|[] l] eqn:N; try discriminate. unfold k_close in E. fields. destruct (closed s) eqn:C; [|unfold k_check in E; destruct (_ && _); discriminate].
      injection E as <-. repeat (split; [reflexivity|]). now exists l.
    + destruct (blk s); [discriminate|]. fields. rewrite b1 in E. assert (NC : forall s2, k_check s2 <> (o, None)) by (intros s2 Q; unfold k_check in Q; destruct (_ && _); discriminate).
      destruct (inFly s); [|now apply NC in E]. destruct (out s); [|now apply NC in E]. unfold k_close in E. fields. destruct (closed s) eqn:C; [|now apply NC in E].
      exfalso. destruct (c eq_refl) as (Q & _). now destruct (r3 Q) as [_ []].
    + destruct (blk s); discriminate.
    + destruct l as [|r l]; [|destruct (comp s r); discriminate]. unfold k_check in E. destruct (_ && _); discriminate.
    + destruct (blk s) eqn:B; [discriminate|]. destruct (respond s x true) as [o2 [s2|]] eqn:Q; [discriminate|]. now apply RS in Q.
  - (* Responder *) destruct (blk s) eqn:B; [discriminate|]. destruct (take_nth _ _) as [[x l]|]; [|discriminate].
    unfold respond in E. destruct (ihas _ _) eqn:H; [|discriminate]. fields. rewrite b1 in E. destruct (closed s) eqn:C; [|destruct (out_full _); discriminate].
    destruct (c eq_refl) as (_ & Q2 & _). rewrite Q2 in H. discriminate.
  - (* Unblock *) destruct (blk s) as [[x k]|] eqn:B; [|discriminate]. destruct (closed s) eqn:C; [|destruct (out_full s); discriminate]. destruct (c eq_refl) as (_ & _ & Q & _). congruence.
Qed.
(** without the race the channel is closed once *)
Definition NR (s : st) : Prop := closed s = true -> ~ In NEmpty (notes s) /\ wp s <> WDef /\ wp s <> WEmpty.
Lemma NR_eff s e o s' : SI s -> NR s -> eff s e o s' -> ~ race s e -> NR s'.
Proof.
  intros I N H C. pose proof I as [b1 nd r1 r2 r3 r4 w1 w2 w3 k1 k2 k3 e1 e2 c h]. unfold NR in *. destruct H; fields; try assumption; try (intro Cl; destruct (N Cl) as (N1 & N2 & N3); repeat split; try assumption; try congruence; fail).
  - intro Cl. destruct (N Cl) as (N1 & N2 & N3). split; [|now split]. intro Q. apply in_app_or in Q. destruct Q as [Q|[Q|[]]]; [contradiction|discriminate].
  - intro Cl. destruct (N Cl) as (N1 & N2 & N3). split; [|now split]. intro Q. apply in_app_or in Q. destruct Q as [Q|[Q|[]]]; [contradiction|discriminate].
  - intro Cl. destruct (N Cl) as (N1 & N2 & N3). rewrite H0 in N1. split; [|now split]. intro Q. apply N1. now right.
  - intro Cl. destruct (N Cl) as (N1 & N2 & N3). rewrite H0 in N1. split; [|now split]. intro Q. apply N1. now right.
  - intros _. rewrite H0 in nd, e2. inversion nd as [|? ? Q1 Q2]; subst. specialize (e2 (or_introl eq_refl)). split; [exact Q1|]. split; intro W; now rewrite W in e2.
  - intros _. split; [|split].
    + intro Q. destruct (e1 (or_intror Q)) as (Q1 & _). now destruct (r3 Q1) as [_ []].
    + intro W. apply C. now split.
    + intro Q. destruct (e1 (or_introl Q)) as (Q1 & _). now destruct (r3 Q1) as [_ []].
  - intros _. split; [|split].
    + intro Q. destruct (e1 (or_intror Q)) as (Q1 & _). now destruct (r3 Q1) as [_ []].
    + intro W. apply C. now split.
    + intro Q. destruct (e1 (or_introl Q)) as (Q1 & _). now destruct (r3 Q1) as [_ []].
Qed.


(** ** reads and writes that failed *)
Lemma eof_run es : forall s t s', run s es = (t, Some s') -> SI s -> eof s = true \/ In NetClose es -> eof s' = true.
Proof.
  induction es as [|e es IH]; intros s t s' E I H; cbn [run] in E.
  - injection E as <- <-. destruct H as [H|[]]. exact H.
  - destruct (step s e) as [o1 [s1|]] eqn:S1; [|discriminate]. destruct (run s1 es) as [o2 s2] eqn:R2. injection E as <- ->.
    pose proof (step_eff _ _ _ _ I S1) as Ef. apply (IH s1 o2); [exact R2|now apply (SI_eff s e o1)|].
    destruct H as [H|[->|H]]; [left|left|now right].
    + destruct Ef; fields; try assumption; reflexivity.
    + cbn in S1. injection S1 as <- <-. reflexivity.
Qed.
Lemma write_error_seen m s t : reach m s t -> In OWriteErr t -> wp s = WNote \/ wp s = WDone.
Proof.
  revert s t. apply (reach_ind_eff m (fun s t => In OWriteErr t -> wp s = WNote \/ wp s = WDone)); [easy|].
  intros s t e o s' I R IH H Q. apply in_app_or in Q. destruct H; cbn [In] in Q; fields; try (now left); try (now right);
    assert (QQ : In OWriteErr t) by (destruct Q as [Q|Q]; [exact Q|intuition discriminate]); specialize (IH QQ); try exact IH; try (destruct IH; intuition congruence).
Qed.
(** everything completed has been answered or dropped when nobody is in Respond *)
Lemma all_answered m s t : reach m s t -> waits s = [] -> kresp s = [] -> Permutation (answers t ++ drops t) (map (response_of m (idOf s)) (comps t)).
Proof. intros R W K. pose proof (ri_perm _ _ _ (RI_reach _ _ _ R)) as P. rewrite W, K, !app_nil_r in P. exact P. Qed.
Lemma fly_open m s t id r : reach m s t -> waits s = [] -> kresp s = [] -> In (id, r) (inFly s) -> In r (sends t) /\ comp s r = false.
Proof.
  intros R W K H. pose proof (RI_reach _ _ _ R) as I. split; [now apply (ri_fly _ _ _ I id)|]. destruct (comp s r) eqn:C; [|reflexivity]. exfalso.
  apply (ri_comp _ _ _ I) in C. apply in_map_iff in C. destruct C as ([[r' code] body] & <- & C). cbn in H.
  destruct (di_fresh _ _ (DI_reach _ _ _ R) _ _ H) as [A B]. assert (M : In (response_of m (idOf s) (r', code, body)) (answers t ++ drops t)) by (rewrite (all_answered _ _ _ R W K); now apply in_map).
  apply in_app_or in M. destruct M as [M|M]; [apply A; now exists (response_of m (idOf s) (r', code, body))|apply B; apply in_map_iff; now exists (response_of m (idOf s) (r', code, body))].
Qed.

(** ** a jammed connection stays jammed *)
Definition jam (s : st) (x : res) (k : bool) : Prop := blk s = Some (x, k) /\ out_full s = true /\ (wp s = WDef \/ wp s = WDone).
Lemma jam_eff s e o s' x k : SI s -> jam s x k -> eff s e o s' -> jam s' x k /\ writes o = [] /\ answers o = [] /\ (k = true -> ~ In OClosed o).
Proof.
  intros I (B & F & W) H. pose proof (si_k2 _ I) as K2.
  destruct H; unfold jam, out_full, blkl in *; fields; try congruence; try (destruct W; intuition congruence);
    try (split; [split; [assumption|split; [try assumption|try assumption; try (now right)]]|split; [reflexivity|split; [reflexivity|intros _ Q; cbn in Q; intuition congruence]]]; fail).
  - (* E_fail *) destruct W as [W|W]; now rewrite W in H.
  - (* E_kfin *) split; [now split|]. split; [reflexivity|]. split; [reflexivity|]. intros -> _. rewrite H in K2. now apply (K2 x).
Qed.
Lemma jam_run m es : forall s t x k o s', reach m s t -> jam s x k -> run s es = (o, Some s') -> jam s' x k /\ writes o = [] /\ answers o = [] /\ (k = true -> ~ In OClosed o).
Proof.
  induction es as [|e es IH]; intros s t x k o s' R J E; cbn [run] in E.
  - injection E as <- <-. split; [exact J|]. now split.
  - destruct (step s e) as [o1 [s1|]] eqn:S1; [|discriminate]. destruct (run s1 es) as [o2 s2] eqn:R2. injection E as <- ->.
    pose proof (SI_reach _ _ _ R) as I. destruct (jam_eff _ _ _ _ _ _ I J (step_eff _ _ _ _ I S1)) as (J1 & W1 & A1 & C1).
    destruct (IH s1 (t ++ o1) x k o2 s' (reachS _ _ _ _ _ _ R S1) J1 R2) as (J2 & W2 & A2 & C2). split; [exact J2|]. rewrite writes_app, answers_app, W1, W2, A1, A2. split; [reflexivity|]. split; [reflexivity|].
    intros K Q. apply in_app_or in Q. destruct Q; [now apply C1|now apply C2].
Qed.
