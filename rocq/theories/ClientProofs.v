(** Invariants of ClientModel.v. *)
From Coq Require Import List Bool Arith ZArith Lia.
Import ListNotations.
From Verif Require Import ClientModel ClientSpec.
Open Scope Z_scope.

Lemma upd_same {A} (f : nat -> A) k v : upd f k v k = v.
Proof. unfold upd. now rewrite Nat.eqb_refl. Qed.
Lemma upd_other {A} (f : nat -> A) k v i : i <> k -> upd f k v i = f i.
Proof. unfold upd. intro X. destruct (Nat.eqb_spec i k); congruence. Qed.
Ltac fields := cbn [conns curId cn need dialing est dying ch acts xreq exiting sp cs cl cw cr ck notes stopped
  w_conns w_cn w_need w_dialing w_est w_dying w_ch w_acts w_xreq w_exiting w_sp
  c_cs c_cl c_cw c_cr c_ck c_notes c_stopped new_conn fst snd] in *.
Ltac spl i j := destruct (Nat.eq_dec i j) as [->|];
  [rewrite ?upd_same in *|rewrite ?upd_other in * by assumption].

Lemma mem_In i l : mem i l = true <-> In i l.
Proof.
  unfold mem. rewrite existsb_exists. split.
  - intros (x & X & E). apply Nat.eqb_eq in E. now subst.
  - intro X. exists i. split; [assumption|apply Nat.eqb_refl].
Qed.
Lemma in_del i j l : In i (del j l) <-> In i l /\ i <> j.
Proof. unfold del. split; [apply in_remove|intros [X Y]; now apply in_in_remove]. Qed.

(** * Steps, seen from one connection *)
Inductive cls := Early | Up | Failed.
Definition cls_of (l : lpc) : cls :=
  match l with L0 | LDial | LSendErr | LSendOk => Early | LSet | LOk => Up | LUnset | LFailed => Failed end.
Definition klate (k : kpc) : Prop := match k with KFlush | KEnd => True | _ => False end.
Definition valid (c : conn) : Prop := (cw c <> WOff -> cl c = LOk) /\ (ck c <> KOff -> cl c = LOk).
Record same_class (c c' : conn) : Prop := {
  sc_cl : cls_of (cl c') = cls_of (cl c);
  sc_cw : cw c' = WEnd <-> cw c = WEnd;
  sc_ck : klate (ck c') <-> klate (ck c);
  sc_l0 : cl c <> L0 -> cl c' <> L0;
  sc_v : valid c -> valid c' }.
Definition rel (o : list obs) : list obs :=
  filter (fun x => match x with OAllDisc | OStop _ | OFlush _ | OEnd => false | _ => true end) o.
Lemma rel_app a b : rel (a ++ b) = rel a ++ rel b.
Proof. apply filter_app. Qed.

Inductive sends (c : conn) : kind -> conn -> Prop :=
| S_err : cl c = LSendErr -> sends c KDialErr (c_cl c LUnset)
| S_ok : cl c = LSendOk -> sends c KDialOk (c_cl c LSet)
| S_wr : cw c = WMsg -> sends c KWrite (c_cw c WEnd)
| S_rd : ck c = KMsg -> sends c KRead (c_ck c KFlush).
Inductive ctr (s : st) (o : list obs) (s' : st) : Prop :=
| X_same : conns s' = conns s -> curId s' = curId s -> cn s' = cn s -> ch s' = ch s -> rel o = [] -> ctr s o s'
| X_conn i c : conns s' = conns s -> curId s' = curId s -> cn s' = upd (cn s) i c -> ch s' = ch s -> rel o = [] ->
    same_class (cn s i) c -> (cn s i <> new_conn \/ In i (conns s)) -> ctr s o s'
| X_send i k c : conns s' = conns s -> curId s' = curId s -> cn s' = upd (cn s) i c -> ch s' = ch s ++ [(i, k)] -> rel o = [] ->
    sends (cn s i) k c -> ctr s o s'
| X_open k : (exists s0 s1 o0 o1, o = o0 ++ o1 /\ rel o1 = [] /\ conns s0 = conns s /\ curId s0 = curId s /\ cn s0 = cn s /\ ch s0 = ch s /\
    open k s0 = (o0, s1) /\ conns s' = conns s1 /\ curId s' = curId s1 /\ cn s' = cn s1 /\ ch s' = ch s1) -> ctr s o s'
| X_up i : conns s' = conns s -> curId s' = curId s -> cn s' = cn s -> ch s = (i, KDialOk) :: ch s' -> rel o = [OUp i] -> ctr s o s'
| X_down i : conns s' = conns s -> curId s' = curId s -> cn s' = cn s -> ch s = (i, KWrite) :: ch s' -> rel o = [ODown i] -> ctr s o s'
| X_derr i : conns s' = del i (conns s) -> curId s' = curId s -> cn s' = cn s -> ch s = (i, KDialErr) :: ch s' -> rel o = [ODialErr i] -> In i (conns s) -> ctr s o s'
| X_dead i : conns s' = del i (conns s) -> curId s' = curId s -> cn s' = cn s -> ch s = (i, KRead) :: ch s' -> rel o = [ODead i] -> In i (conns s) -> ctr s o s'
| X_panic i k : (k = KDialErr \/ k = KRead) -> ch s = (i, k) :: ch s' -> ~ In i (conns s) -> ctr s o s'.

Lemma after_core s o s' : after s = (o, s') ->
  conns s' = conns s /\ curId s' = curId s /\ cn s' = cn s /\ ch s' = ch s /\ rel o = [] /\
  need s' = need s /\ dialing s' = dialing s /\ est s' = est s /\ acts s' = acts s /\ xreq s' = xreq s /\ exiting s' = exiting s /\
  (exiting s = false -> sp s' = SIdle /\ o = []).
Proof.
  unfold after, ok. destruct (exiting s && _) eqn:B; intro E; injection E as <- <-; fields; repeat split.
  all: match goal with X : exiting _ = false, Y : exiting _ && _ = true |- _ => rewrite X in Y; discriminate end.
Qed.
Lemma turn_core s r o s' : server_turn s r = (o, s') ->
  (o = [] /\ s' = s /\ sp s <> SIdle) \/
  (sp s = SIdle /\ conns s' = conns (snd r) /\ curId s' = curId (snd r) /\ cn s' = cn (snd r) /\ ch s' = ch (snd r) /\ rel o = rel (fst r)).
Proof.
  unfold server_turn. destruct r as [o1 s1]. destruct (sp s) eqn:S0; intro E; try (left; injection E as <- <-; repeat split; congruence).
  right. destruct (after s1) as [o2 s2] eqn:A. injection E as <- <-. apply after_core in A as (A1 & A2 & A3 & A4 & A5 & _).
  rewrite rel_app, A5, app_nil_r. auto 8.
Qed.

Ltac sc := constructor; unfold valid; fields; [reflexivity|tauto|tauto|auto|auto].
Lemma step_ctr s e o s' : (forall i, valid (cn s i)) -> step s e = (o, s') -> ctr s o s'.
Proof.
  intros V E.
  assert (ST : (o, s') = ok s -> ctr s o s') by (intro X; injection X as -> ->; now apply X_same).
  destruct e as [n| | | | | |i| |i|i b|i|i|i|i|i|i|i|i|i]; cbn [step] in E.
  - injection E as <- <-. now apply X_same.
  - injection E as <- <-. now apply X_same.
  - destruct (sp s); auto. unfold fix_connections in E. destruct (_ <? 0); [injection E as <- <-; now apply X_same|].
    destruct (open _ s) as [o1 s1] eqn:O. destruct (after s1) as [o2 s2] eqn:A. injection E as <- <-.
    apply after_core in A as (A1 & A2 & A3 & A4 & A5 & _).
    eapply X_open. exists s, s1, o1, o2. rewrite A1, A2, A3, A4. repeat split; eauto.
  - destruct (ch s) as [|[i k] c] eqn:C; [auto|].
    destruct (turn_core _ _ _ _ E) as [(-> & -> & _)|(_ & T1 & T2 & T3 & T4 & T5)]; [now apply X_same|].
    destruct k; unfold on_conn_error in *; fields.
    + apply (X_up _ _ _ i); try congruence. now rewrite T5.
    + destruct (mem i (conns s)) eqn:M; fields.
      * apply (X_derr _ _ _ i); try congruence; [|now apply mem_In]. rewrite T5. now destruct (est s =? 0).
      * apply (X_panic _ _ _ i KDialErr); [auto|congruence|]. intro X. apply mem_In in X. congruence.
    + eapply (X_down _ _ _ i); try congruence. rewrite T5. now destruct (est s - 1 =? 0).
    + destruct (mem i (conns s)) eqn:M; fields.
      * apply (X_dead _ _ _ i); try congruence; [now rewrite T5|now apply mem_In].
      * apply (X_panic _ _ _ i KRead); [auto|congruence|]. intro X. apply mem_In in X. congruence.
  - destruct (acts s) as [|n a]; [auto|].
    destruct (turn_core _ _ _ _ E) as [(-> & -> & _)|(_ & T1 & T2 & T3 & T4 & T5)]; [now apply X_same|now apply X_same].
  - destruct (xreq s); [|auto].
    destruct (turn_core _ _ _ _ E) as [(-> & -> & _)|(_ & T1 & T2 & T3 & T4 & T5)]; [now apply X_same|now apply X_same].
  - destruct (sp s); auto. destruct (mem i todo); auto.
    destruct (cs (cn s i)) eqn:C; injection E as <- <-; try (now apply X_same);
      (apply (X_conn _ _ _ i (c_stopped (cn s i) true)); try reflexivity; [sc|]); left; intro X; rewrite X in C; discriminate.
  - destruct (sp s); auto. destruct todo; auto. apply after_core in E as (A1 & A2 & A3 & A4 & A5 & _). now apply X_same.
  - destruct (cl (cn s i)) eqn:C; auto. destruct (mem i (conns s)) eqn:M; auto. injection E as <- <-.
    eapply (X_conn _ _ _ i); try reflexivity; [|right; now apply mem_In].
    constructor; unfold valid; fields; rewrite ?C; try tauto. intros [V1 V2]. split; intro X; [apply V1 in X|apply V2 in X]; congruence.
  - destruct (cl (cn s i)) eqn:C; auto. injection E as <- <-.
    eapply (X_conn _ _ _ i); try reflexivity; [|left; intro X; rewrite X in C; discriminate].
    constructor; unfold valid; fields; rewrite ?C; try tauto.
    + now destruct b.
    + now destruct b.
    + intros [V1 V2]. split; intro X; [apply V1 in X|apply V2 in X]; congruence.
  - unfold send, ok in E. destruct (cl (cn s i)) eqn:C; auto; (destruct (_ <? _)%nat; [|auto]); injection E as <- <-;
      eapply (X_send _ _ _ i); try reflexivity; now constructor.
  - destruct (cl (cn s i)) eqn:C; auto; injection E as <- <-;
      (eapply (X_conn _ _ _ i); try reflexivity; [|left; intro X; rewrite X in C; discriminate]).
    + assert (X1 : cw (cn s i) = WOff) by (destruct (V i) as [V1 _]; destruct (cw (cn s i)); try reflexivity; discriminate V1 || (rewrite C in V1; specialize (V1 ltac:(discriminate)); discriminate)).
      assert (X2 : ck (cn s i) = KOff) by (destruct (V i) as [_ V1]; destruct (ck (cn s i)); try reflexivity; rewrite C in V1; specialize (V1 ltac:(discriminate)); discriminate).
      constructor; unfold valid; fields; rewrite ?C, ?X1, ?X2; try tauto; try (split; discriminate); try discriminate.
    + constructor; unfold valid; fields; rewrite ?C; try tauto; [discriminate|].
      intros [V1 V2]. split; intro X; [apply V1 in X|apply V2 in X]; congruence.
  - unfold step_w, send, tell, ok in E. fields.
    destruct (cw (cn s i)) eqn:C; auto; try (destruct (_ <? _)%nat; [|auto]); injection E as <- <-;
     try (eapply (X_conn _ _ _ i); try reflexivity; [|left; intro X; rewrite X in C; discriminate];
      constructor; unfold valid; fields; rewrite ?C; try tauto;
        [try (destruct (stopped (cn s i))); split; discriminate|intros [V1 V2]; split; [intros _; apply V1; congruence|assumption]]).
    eapply (X_send _ _ _ i); try reflexivity. now constructor.
  - destruct (cw (cn s i)) eqn:C; auto; injection E as <- <-;
     try (eapply (X_conn _ _ _ i); try reflexivity; [|left; intro X; rewrite X in C; discriminate];
      constructor; unfold valid; fields; rewrite ?C; try tauto;
        [split; discriminate|intros [V1 V2]; split; [intros _; apply V1; congruence|assumption]]).
  - destruct (cw (cn s i)) eqn:C; auto; injection E as <- <-;
     try (eapply (X_conn _ _ _ i); try reflexivity; [|left; intro X; rewrite X in C; discriminate];
      constructor; unfold valid; fields; rewrite ?C; try tauto;
        [split; discriminate|intros [V1 V2]; split; [intros _; apply V1; congruence|assumption]]).
  - destruct (sp s); auto. destruct (cw (cn s i)) eqn:C; auto. destruct (i =? i0)%nat; auto.
    assert (Y : same_class (cn s i) (c_cw (cn s i) WNote)).
    { constructor; unfold valid; fields; rewrite ?C; try tauto; [split; discriminate|intros [V1 V2]; split; [intros _; apply V1; congruence|assumption]]. }
    assert (N : cn s i <> new_conn) by (intro X; rewrite X in C; discriminate).
    destruct (k + 1 =? 0).
    + apply after_core in E as (A1 & A2 & A3 & A4 & A5 & _).
      apply (X_conn _ _ _ i (c_cw (cn s i) WNote)); auto; destruct d; assumption.
    + injection E as <- <-. apply (X_conn _ _ _ i (c_cw (cn s i) WNote)); auto; now destruct d.
  - destruct (cr (cn s i)) eqn:C; auto; injection E as <- <-;
      (eapply (X_conn _ _ _ i); try reflexivity; [|left; intro X; rewrite X in C; discriminate]); sc.
  - unfold tell, ok in E. fields. destruct (cr (cn s i)) eqn:C; auto; (destruct (_ <? _)%nat; [|auto]); injection E as <- <-;
      (eapply (X_conn _ _ _ i); try reflexivity; [|left; intro X; rewrite X in C; discriminate]); sc.
  - unfold step_k, send, ok in E. destruct (ck (cn s i)) eqn:C; auto.
    + destruct (notes (cn s i)) as [|n ns]; auto.
      destruct (match cs (cn s i) with CsClosing r w => (r, w) | _ => (false, false) end) as [r w].
      destruct (match n with NWrite => (r, true) | NRead => (true, w) end) as [r' w']. injection E as <- <-.
      eapply (X_conn _ _ _ i); try reflexivity; [|left; intro X; rewrite X in C; discriminate].
      constructor; unfold valid; fields; rewrite ?C; try tauto.
      * destruct (r' && w'); cbn; tauto.
      * intros [V1 V2]. split; [assumption|intros _; apply V2; congruence].
    + destruct (_ <? _)%nat; [|auto]. injection E as <- <-. eapply (X_send _ _ _ i); try reflexivity. now constructor.
    + injection E as <- <-. eapply (X_conn _ _ _ i); try reflexivity; [|left; intro X; rewrite X in C; discriminate].
      constructor; unfold valid; fields; rewrite ?C; try (cbn; tauto). intros [V1 V2]. split; [assumption|intros _; apply V2; congruence].
Qed.

(** * What the endpoint knows *)
Definition exists_conn (s : st) (i : nat) : Prop := (1 <= i <= curId s)%nat.
Record GI (t : list obs) (s : st) : Prop := {
  g_v : forall i, valid (cn s i);
  g_new : forall i, ~ exists_conn s i -> cn s i = new_conn /\ ~ In i (conns s) /\ forall k, ~ In (i, k) (ch s);
  g_nd : NoDup (ch s);
  g_msg : forall i k, In (i, k) (ch s) ->
     match k with KDialOk => cls_of (cl (cn s i)) = Up | KDialErr => cls_of (cl (cn s i)) = Failed
                | KWrite => cw (cn s i) = WEnd | KRead => klate (ck (cn s i)) end;
  g_ord : forall i a b, ch s = a ++ (i, KWrite) :: b -> ~ In (i, KDialOk) b;
  g_live : forall i, exists_conn s i -> In i (conns s) \/
     (cls_of (cl (cn s i)) = Failed /\ ~ In (i, KDialErr) (ch s)) \/ (klate (ck (cn s i)) /\ ~ In (i, KRead) (ch s));
  g_open : forall i, In (OOpen i) t <-> exists_conn s i;
  g_up : forall i, In (OUp i) t <-> cls_of (cl (cn s i)) = Up /\ ~ In (i, KDialOk) (ch s);
  g_err : forall i, In (ODialErr i) t <-> cls_of (cl (cn s i)) = Failed /\ ~ In (i, KDialErr) (ch s);
  g_down : forall i, In (ODown i) t <-> cw (cn s i) = WEnd /\ ~ In (i, KWrite) (ch s);
  g_nopanic : ~ In OPanic t }.

Lemma in_rel x t : match x with OAllDisc | OStop _ | OFlush _ | OEnd => False | _ => True end -> In x t <-> In x (rel t).
Proof. intro R. unfold rel. rewrite filter_In. destruct x; tauto. Qed.
(** the invariant looks at the relevant part of the trace and the core of the state only *)
Lemma GI_ext t t' s s' : conns s' = conns s -> curId s' = curId s -> (forall i, cn s' i = cn s i) -> ch s' = ch s -> rel t' = rel t -> GI t s -> GI t' s'.
Proof.
  intros E1 E2 E3 E4 E5 [A B C D E F G H I J K]. unfold exists_conn in *.
  split; unfold exists_conn; intros; rewrite ?E1, ?E2, ?E3, ?E4 in *; try rewrite in_rel, E5, <- in_rel by exact Logic.I; eauto.
  - now apply D.
Qed.
Lemma snoc_nd {A} (l : list A) x : NoDup l -> ~ In x l -> NoDup (l ++ [x]).
Proof.
  intros N X. apply NoDup_rev in N. rewrite <- (rev_involutive (l ++ [x])). apply NoDup_rev. rewrite rev_app_distr.
  cbn [rev app]. constructor; [|assumption]. now rewrite <- in_rev.
Qed.
Lemma snoc_cut {A} (l a b : list A) x y : l ++ [x] = a ++ y :: b -> (x = y /\ a = l /\ b = []) \/ exists b', b = b' ++ [x] /\ l = a ++ y :: b'.
Proof.
  intro E. destruct (exists_last (l := y :: b)) as (b0 & z & Eb); [discriminate|].
  destruct b as [|b1 b].
  - left. apply app_inj_tail in E as [-> ->]. auto.
  - right. destruct (exists_last (l := b1 :: b)) as (b' & z' & Eb'); [discriminate|]. rewrite Eb' in E.
    assert (E' : l ++ [x] = (a ++ y :: b') ++ [z']) by (rewrite E, <- app_assoc; reflexivity).
    apply app_inj_tail in E' as [-> ->]. exists b'. auto.
Qed.

Lemma GI_conn t s i c : GI t s -> same_class (cn s i) c -> (cn s i <> new_conn \/ In i (conns s)) -> GI t (w_cn s i c).
Proof.
  intros [A B C D E F G H I J K] [S1 S2 S3 S4 S5] Ex.
  assert (Xi : exists_conn s i).
  { unfold exists_conn. destruct (le_lt_dec i (curId s)) as [L|L].
    - destruct i as [|i]; [|lia]. destruct (B 0%nat) as (B1 & B2 & _); [unfold exists_conn; lia|]. tauto.
    - destruct (B i) as (B1 & B2 & _); [unfold exists_conn; lia|]. tauto. }
  split; unfold exists_conn in *; fields; auto.
  - intro j. spl j i; auto.
  - intros j X. assert (j <> i) by (intros ->; tauto). rewrite upd_other by assumption. auto.
  - intros j k X. spl j i; [|now apply D]. specialize (D i k X). destruct k; try congruence; [now apply S2|now apply S3].
  - intros j X. spl j i; [|auto]. rewrite S1, S3. auto.
  - intro j. spl j i; [rewrite S1; auto|auto].
  - intro j. spl j i; [rewrite S1; auto|auto].
  - intro j. spl j i; [rewrite S2; auto|auto].
Qed.
Lemma GI_send t s i k c : GI t s -> sends (cn s i) k c -> GI t (w_ch (w_cn s i c) (ch s ++ [(i, k)])).
Proof.
  intros [A B C D E F G H I J K] S0. 
  assert (Ni : cn s i <> new_conn) by (intro X; destruct S0 as [X1|X1|X1|X1]; rewrite X in X1; discriminate).
  assert (Xi : exists_conn s i).
  { unfold exists_conn. destruct (le_lt_dec i (curId s)) as [L|L].
    - destruct i as [|i]; [|lia]. destruct (B 0%nat) as (B1 & B2 & _); [unfold exists_conn; lia|]. tauto.
    - destruct (B i) as (B1 & B2 & _); [unfold exists_conn; lia|]. tauto. }
  destruct (A i) as [V1 V2].
  assert (Nk : ~ In (i, k) (ch s)).
  { intro X. apply D in X. destruct S0 as [X1|X1|X1|X1]; rewrite X1 in X; try discriminate. destruct X. }
  assert (KR : forall j k', In (j, k') (ch s ++ [(i, k)]) <-> In (j, k') (ch s) \/ (j = i /\ k' = k)).
  { intros j k'. rewrite in_app_iff. cbn [In]. split; intros [X|X]; auto; [destruct X as [X|[]]; right; split; congruence|].
    destruct X as [-> ->]. auto. }
  split; unfold exists_conn in *; fields; auto.
  - intro j. spl j i; [|auto]. unfold valid. destruct S0 as [X|X|X|X]; fields; auto; rewrite ?X in *.
    + split; intro Y; [apply V1 in Y|apply V2 in Y]; discriminate.
    + split; intro Y; [apply V1 in Y|apply V2 in Y]; discriminate.
    + split; [intros _; apply V1; discriminate|auto].
    + split; [auto|intros _; apply V2; discriminate].
  - intros j X. assert (j <> i) by (intros ->; tauto). rewrite upd_other by assumption. destruct (B j X) as (B1 & B2 & B3).
    repeat split; auto. intros k' Y. apply KR in Y as [Y|[Y _]]; [now apply (B3 k')|congruence].
  - now apply snoc_nd.
  - intros j k' X. apply KR in X as [X|[-> ->]].
    + spl j i; [|now apply D]. specialize (D i k' X). destruct S0 as [Y|Y|Y|Y]; fields; destruct k'; rewrite ?Y in *; cbn [cls_of] in *; auto; try discriminate.
      destruct D.
    + rewrite upd_same. destruct S0; fields; cbn; auto.
  - intros j a b X Y. apply snoc_cut in X as [(X & -> & ->)|(b' & -> & X)]; [destruct Y|].
    apply in_app_iff in Y as [Y|[Y|[]]]; [now apply (E j a b')|]. injection Y as -> ->.
    assert (Z : In (j, KWrite) (ch s)) by (rewrite X; apply in_app_iff; right; now left). apply D in Z.
    inversion S0 as [|Y| |]; subst. specialize (V1 ltac:(congruence)). congruence.
  - intros j X. destruct (F j X) as [Y|[[Y1 Y2]|[Y1 Y2]]]; [auto| |].
    + spl j i.
      * right; left. destruct S0 as [Z|Z|Z|Z]; fields; rewrite ?Z in *; try discriminate; (split; [assumption|]); rewrite KR; intuition congruence.
      * right; left. split; [assumption|]. rewrite KR. tauto.
    + spl j i.
      * right; right. destruct S0 as [Z|Z|Z|Z]; fields; rewrite ?Z in *; cbn [klate] in *; try tauto; (split; [assumption|]); rewrite KR; intuition congruence.
      * right; right. split; [assumption|]. rewrite KR. tauto.
  - intro j. rewrite H, KR. spl j i; [|tauto]. destruct S0 as [Z|Z|Z|Z]; fields; rewrite ?Z; cbn [cls_of]; intuition congruence.
  - intro j. rewrite I, KR. spl j i; [|tauto]. destruct S0 as [Z|Z|Z|Z]; fields; rewrite ?Z; cbn [cls_of]; intuition congruence.
  - intro j. rewrite J, KR. spl j i; [|tauto]. destruct S0 as [Z|Z|Z|Z]; fields; rewrite ?Z; cbn [cls_of]; intuition congruence.
Qed.
Lemma GI_take t s i k c o : GI t s -> ch s = (i, k) :: c ->
  match k with KDialOk => o = [OUp i] | KWrite => o = [ODown i] | KDialErr => o = [ODialErr i] | KRead => o = [ODead i] end ->
  GI (t ++ o) (w_ch (match k with KDialErr | KRead => w_conns s (del i (conns s)) | _ => s end) c).
Proof.
  intros [A B C D E F G H I J K] Ch O. rewrite Ch in C. apply NoDup_cons_iff in C as [C1 C2].
  assert (IC : forall j k', In (j, k') (ch s) <-> (j = i /\ k' = k) \/ In (j, k') c).
  { intros j k'. rewrite Ch. cbn [In]. split; intros [X|X]; auto; [left; split; congruence|]. destruct X as [-> ->]. auto. }
  assert (Hd := proj2 (IC i k) (or_introl (conj eq_refl eq_refl))).
  pose proof (D i k Hd) as Di.
  assert (Xi : exists_conn s i).
  { unfold exists_conn. destruct (le_lt_dec i (curId s)) as [L|L].
    - destruct i as [|i]; [|lia]. destruct (B 0%nat) as (B1 & B2 & B3); [unfold exists_conn; lia|]. destruct (B3 _ Hd).
    - destruct (B i) as (B1 & B2 & B3); [unfold exists_conn; lia|]. destruct (B3 _ Hd). }
  split; unfold exists_conn in *.
  - intro j. destruct k; fields; auto.
  - intros j X. assert (X' : ~ (1 <= j <= curId s)%nat) by (destruct k; exact X). destruct (B j X') as (B1 & B2 & B3).
    assert (B4 : forall k', ~ In (j, k') c) by (intros k' Y; apply (B3 k'), IC; auto).
    destruct k; fields; repeat split; auto; intro Y; apply in_del in Y; tauto.
  - destruct k; fields; auto.
  - intros j k' X. specialize (D j k'). rewrite IC in D. destruct k; fields; exact (D (or_intror X)).
  - intros j a b X. assert (X' : c = a ++ (j, KWrite) :: b) by (destruct k; exact X). apply (E j ((i, k) :: a) b). rewrite Ch, X'. reflexivity.
  - intros j X. assert (X' : (1 <= j <= curId s)%nat) by (destruct k; exact X).
    assert (Y : In j (conns s) \/ (cls_of (cl (cn s j)) = Failed /\ ~ In (j, KDialErr) c) \/ (klate (ck (cn s j)) /\ ~ In (j, KRead) c)).
    { destruct (F j X') as [Y|[[Y1 Y2]|[Y1 Y2]]]; [auto|rewrite IC in Y2; tauto|rewrite IC in Y2; tauto]. }
    destruct (Nat.eq_dec j i) as [->|N].
    + destruct k; fields; auto.
    + assert (Y' : In j (del i (conns s)) \/ (cls_of (cl (cn s j)) = Failed /\ ~ In (j, KDialErr) c) \/ (klate (ck (cn s j)) /\ ~ In (j, KRead) c)) by (rewrite in_del; tauto).
      destruct k; fields; auto.
  - intro j. rewrite in_app_iff. assert (~ In (OOpen j) o) by (destruct k; subst o; cbn [In]; intuition congruence).
    specialize (G j). destruct k; fields; tauto.
  - intro j. rewrite in_app_iff, H, IC. destruct k; subst o; fields; cbn [In]; destruct (Nat.eq_dec j i) as [->|N]; intuition congruence.
  - intro j. rewrite in_app_iff, I, IC. destruct k; subst o; fields; cbn [In]; destruct (Nat.eq_dec j i) as [->|N]; intuition congruence.
  - intro j. rewrite in_app_iff, J, IC. destruct k; subst o; fields; cbn [In]; destruct (Nat.eq_dec j i) as [->|N]; intuition congruence.
  - rewrite in_app_iff. destruct k; subst o; cbn [In]; intuition congruence.
Qed.
Lemma GI_open k : forall t s o s', GI t s -> open k s = (o, s') -> GI (t ++ o) s'.
Proof.
  induction k as [|k IH]; intros t s o s' X E; cbn [open] in E.
  - injection E as <- <-. now rewrite app_nil_r.
  - set (i := S (curId s)) in *.
    destruct (open k _) as [o1 s1] eqn:O. injection E as <- <-. change (OOpen i :: o1) with ([OOpen i] ++ o1). rewrite app_assoc.
    eapply IH; [|exact O]. clear IH O.
    destruct X as [A B C D E F G H I J K].
    destruct (B i) as (B1 & B2 & B3); [unfold exists_conn; lia|].
    split; unfold exists_conn in *; fields; auto.
    + intro j. spl j i; [split; intro; contradiction|auto].
    + intros j X. spl j i; [lia|]. destruct (B j) as (Y1 & Y2 & Y3); [lia|]. repeat split; auto. cbn [In]. intuition congruence.
    + intros j k' X. spl j i; [destruct (B3 _ X)|now apply D].
    + intros j X. spl j i; [left; now left|]. destruct (F j) as [Y|Y]; [lia|left; now right|auto].
    + intro j. rewrite in_app_iff, G. cbn [In]. destruct (Nat.eq_dec j i) as [->|N]; [split; [lia|auto]|].
      split; [intros [Y|[Y|[]]]; [lia|congruence]|left; lia].
    + intro j. rewrite in_app_iff, H. cbn [In]. spl j i; [rewrite B1; cbn; intuition congruence|intuition congruence].
    + intro j. rewrite in_app_iff, I. cbn [In]. spl j i; [rewrite B1; cbn; intuition congruence|intuition congruence].
    + intro j. rewrite in_app_iff, J. cbn [In]. spl j i; [rewrite B1; cbn; intuition congruence|intuition congruence].
    + rewrite in_app_iff. cbn [In]. intuition congruence.
Qed.
Lemma GI_tr t s o s' : ctr s o s' -> GI t s -> GI (t ++ o) s'.
Proof.
  intros T X. destruct T as [E1 E2 E3 E4 E5|i c E1 E2 E3 E4 E5 S0 Ex|i k c E1 E2 E3 E4 E5 S0|k T|i E1 E2 E3 E4 E5|i E1 E2 E3 E4 E5|i E1 E2 E3 E4 E5 E6|i E1 E2 E3 E4 E5 E6|i k Hk E1 E2].
  - eapply (GI_ext t); eauto; [intro; now rewrite E3|rewrite rel_app, E5; apply app_nil_r].
  - eapply (GI_ext t _ (w_cn s i c)); fields; eauto; [intro; now rewrite E3|rewrite rel_app, E5; apply app_nil_r|]. now apply GI_conn.
  - eapply (GI_ext t _ (w_ch (w_cn s i c) (ch s ++ [(i, k)]))); fields; eauto; [intro; now rewrite E3|rewrite rel_app, E5; apply app_nil_r|]. now apply GI_send.
  - destruct T as (s0 & s1 & o0 & o1 & -> & R & C1 & C2 & C3 & C4 & O & D1 & D2 & D3 & D4).
    eapply (GI_ext (t ++ o0) _ s1); eauto; [intro; now rewrite D3|rewrite app_assoc, rel_app, R; apply app_nil_r|].
    eapply GI_open; [|exact O]. eapply (GI_ext t _ s); eauto. intro; now rewrite C3.
  - eapply (GI_ext (t ++ [OUp i])); [| | | | |eapply (GI_take t s i KDialOk); eauto]; fields; auto; [intro; now rewrite E3|rewrite !rel_app, E5; reflexivity].
  - eapply (GI_ext (t ++ [ODown i])); [| | | | |eapply (GI_take t s i KWrite); eauto]; fields; auto; [intro; now rewrite E3|rewrite !rel_app, E5; reflexivity].
  - eapply (GI_ext (t ++ [ODialErr i])); [| | | | |eapply (GI_take t s i KDialErr); eauto]; fields; auto; [intro; now rewrite E3|rewrite !rel_app, E5; reflexivity].
  - eapply (GI_ext (t ++ [ODead i])); [| | | | |eapply (GI_take t s i KRead); eauto]; fields; auto; [intro; now rewrite E3|rewrite !rel_app, E5; reflexivity].
  - exfalso. destruct X as [A B C D E F G H I J K].
    assert (Hd : In (i, k) (ch s)) by (rewrite E1; now left).
    assert (Xi : exists_conn s i).
    { unfold exists_conn. destruct (le_lt_dec i (curId s)) as [L|L].
      - destruct i as [|i]; [|lia]. destruct (B 0%nat) as (B1 & B2 & B3); [unfold exists_conn; lia|]. destruct (B3 _ Hd).
      - destruct (B i) as (B1 & B2 & B3); [unfold exists_conn; lia|]. destruct (B3 _ Hd). }
    pose proof (D i k Hd) as Di. destruct (A i) as [V1 V2].
    destruct (F i Xi) as [Y|[[Y1 Y2]|[Y1 Y2]]]; [tauto| |]; destruct Hk as [-> | ->]; try tauto.
    + assert (ck (cn s i) <> KOff) by (intro Z; rewrite Z in Di; destruct Di). rewrite V2 in Y1 by assumption. discriminate.
    + assert (ck (cn s i) <> KOff) by (intro Z; rewrite Z in Y1; destruct Y1). rewrite V2 in Di by assumption. discriminate.
Qed.
Lemma GI_step t s e o s' : GI t s -> step s e = (o, s') -> GI (t ++ o) s'.
Proof. intros X E. eapply GI_tr; [|exact X]. eapply step_ctr; [apply (g_v t s X)|exact E]. Qed.
Lemma GI_init n o s : s_init n = (o, s) -> GI o s.
Proof.
  intro E. change o with ([] ++ o). eapply GI_open; [|exact E].
  split; unfold exists_conn; fields; cbn [In]; intros; auto; try tauto; try (split; [discriminate || tauto|]); try lia; try (intros [X Y]; discriminate); try tauto.
  - constructor.
  - destruct a; discriminate.
Qed.

(** * Counting *)
Lemma count_ext n P Q : (forall i, P i <-> Q i) -> count_of n P -> count_of n Q.
Proof. intros E (l & N & I & ->). exists l. split; [assumption|]. split; [|reflexivity]. intro i. rewrite I. apply E. Qed.
Lemma count_add n P Q x : ~ P x -> (forall i, Q i <-> P i \/ i = x) -> count_of n P -> count_of (n + 1) Q.
Proof.
  intros X E (l & N & I & ->). exists (x :: l). split; [constructor; [now rewrite I|assumption]|]. split; [|cbn [length]; lia].
  intro i. cbn [In]. rewrite E, I. split; intros [A|A]; auto.
Qed.
Lemma length_remove l x : NoDup l -> In x l -> S (length (remove Nat.eq_dec x l)) = length l.
Proof.
  induction l as [|a l IH]; cbn [remove In length]; [intros _ []|]. intros N I. apply NoDup_cons_iff in N as [N1 N2].
  destruct (Nat.eq_dec x a) as [->|Ne].
  - now rewrite notin_remove.
  - cbn [length]. destruct I as [->|I]; [congruence|]. now rewrite IH.
Qed.
Lemma NoDup_remove' (l : list nat) x : NoDup l -> NoDup (remove Nat.eq_dec x l).
Proof.
  induction l as [|a l IH]; cbn [remove]; intro N; [assumption|]. apply NoDup_cons_iff in N as [N1 N2].
  destruct (Nat.eq_dec x a); [auto|]. constructor; [|auto]. intro X. apply in_remove in X. tauto.
Qed.
Lemma count_del n (P Q : nat -> Prop) x : P x -> (forall i, Q i <-> P i /\ i <> x) -> count_of n P -> count_of (n - 1) Q.
Proof.
  intros X E (l & N & I & ->). apply I in X. exists (remove Nat.eq_dec x l). split; [now apply NoDup_remove'|].
  split; [|pose proof (length_remove l x N X); lia]. intro i. rewrite E, <- I. split; [apply in_remove|intros [A B]; now apply in_in_remove].
Qed.
Lemma count_fun n m P : count_of n P -> count_of m P -> n = m.
Proof.
  intros (l & N & I & ->) (l' & N' & I' & ->). f_equal. apply Nat.le_antisymm; apply NoDup_incl_length; try assumption; intros x X.
  - apply I', I, X.
  - apply I, I', X.
Qed.

(** * While the number of connections does not shrink *)
Fixpoint chain (n : Z) (l : list Z) (c : Z) : Prop := match l with [] => n = c | a :: l => n <= a /\ chain a l c end.
Lemma chain_snoc l : forall n c m, chain n l c -> c <= m -> chain n (l ++ [m]) m.
Proof. induction l as [|a l IH]; cbn [chain app]; intros n c m X L; [subst; auto|]. destruct X. eauto. Qed.
Lemma chain_le l : forall n c, chain n l c -> n <= c.
Proof. induction l as [|a l IH]; cbn [chain]; intros n c X; [lia|]. destruct X as [X1 X2]. apply IH in X2. lia. Qed.
Record RI (t : list obs) (s : st) (c : Z) : Prop := {
  r_g : GI t s;
  r_sp : sp s = SIdle;
  r_ex : exiting s = false;
  r_xr : xreq s = false;
  r_acts : chain (need s) (acts s) c;
  r_le : dialing s + est s <= need s;
  r_du : forall i, In (ODown i) t -> In (OUp i) t;
  r_d : count_of (dialing s) (awaited t);
  r_u : count_of (est s) (known_up t) }.
Lemma aw_ext t t' : rel t' = rel t -> forall i, awaited t i <-> awaited t' i.
Proof. intros E i. unfold awaited. rewrite !(in_rel _ t), !(in_rel _ t') by exact Logic.I. now rewrite E. Qed.
Lemma ku_ext t t' : rel t' = rel t -> forall i, known_up t i <-> known_up t' i.
Proof. intros E i. unfold known_up. rewrite !(in_rel _ t), !(in_rel _ t') by exact Logic.I. now rewrite E. Qed.
Lemma RI_frame t o s s' c c' : RI t s c -> GI (t ++ o) s' -> sp s' = SIdle -> exiting s' = false -> xreq s' = false ->
  chain (need s') (acts s') c' -> need s <= need s' -> dialing s' = dialing s -> est s' = est s -> rel o = [] -> RI (t ++ o) s' c'.
Proof.
  intros [A B C D E F U G H] A' B' C' D' E' N F1 F2 R.
  assert (R' : rel (t ++ o) = rel t) by (rewrite rel_app, R; apply app_nil_r).
  split; auto; try lia.
  - intro i. rewrite !(in_rel _ (t ++ o)) by exact Logic.I. rewrite R', <- !in_rel by exact Logic.I. apply U.
  - rewrite F1. eapply count_ext; [|exact G]. apply aw_ext. congruence.
  - rewrite F2. eapply count_ext; [|exact H]. apply ku_ext. congruence.
Qed.
Lemma open_counts k : forall t s o s', GI t s -> open k s = (o, s') -> count_of (dialing s) (awaited t) -> count_of (est s) (known_up t) ->
  (forall i, In (ODown i) t -> In (OUp i) t) ->
  count_of (dialing s') (awaited (t ++ o)) /\ count_of (est s') (known_up (t ++ o)) /\ dialing s' = dialing s + Z.of_nat k /\ est s' = est s /\
  need s' = need s /\ acts s' = acts s /\ xreq s' = xreq s /\ exiting s' = exiting s /\ sp s' = sp s /\ (forall i, In (ODown i) (t ++ o) -> In (OUp i) (t ++ o)) /\
  length o = k.
Proof.
  induction k as [|k IH]; intros t s o s' G E C1 C2 U; cbn [open] in E.
  - injection E as <- <-. rewrite app_nil_r. repeat split; auto; lia.
  - set (i := S (curId s)) in *.
    match type of E with context [open k ?x] => set (s1 := x) in * end.
    assert (G1 : GI (t ++ [OOpen i]) s1) by (apply (GI_open 1 t s _ s1 G); reflexivity).
    destruct (open k s1) as [o1 s2] eqn:O. injection E as <- <-. change (OOpen i :: o1) with ([OOpen i] ++ o1). rewrite app_assoc.
    destruct (g_new t s G i) as (B1 & B2 & B3); [unfold exists_conn; lia|].
    assert (NO : ~ In (OOpen i) t) by (rewrite (g_open t s G); unfold exists_conn; lia).
    assert (NU : ~ In (OUp i) t) by (rewrite (g_up t s G), B1; intros [X _]; discriminate).
    assert (NE : ~ In (ODialErr i) t) by (rewrite (g_err t s G), B1; intros [X _]; discriminate).
    destruct (IH (t ++ [OOpen i]) s1 o1 s2 G1 O) as (I1 & I2 & I3 & I4 & I5 & I6 & I7 & I8 & I9 & I10 & I11).
    + unfold s1; fields. eapply (count_add _ (awaited t) _ i); [unfold awaited; tauto| |exact C1].
      intro j. unfold awaited. rewrite !in_app_iff. cbn [In]. split.
      * intros ([X|[X|[]]] & Y & Z); [left; tauto|right; congruence].
      * intros [(X & Y & Z)| ->]; [|intuition congruence]. repeat split; intuition congruence.
    + unfold s1; fields. eapply count_ext; [|exact C2]. intro j. unfold known_up. rewrite !in_app_iff. cbn [In]. intuition congruence.
    + intro j. rewrite !in_app_iff. cbn [In]. specialize (U j). intuition congruence.
    + unfold s1 in *; fields. repeat split; auto; try lia. cbn [length app]. lia.
Qed.

(** steps of the connections *)
Definition conn_ev (e : ev) : bool :=
  match e with SetConns _ | Stop | Tick | TakeErr | TakeAct | TakeExit | Visit _ | VisitEnd | WExit _ => false | _ => true end.
Lemma conn_frame s e o s' : conn_ev e = true -> step s e = (o, s') ->
  rel o = [] /\ need s' = need s /\ dialing s' = dialing s /\ est s' = est s /\ acts s' = acts s /\ xreq s' = xreq s /\ exiting s' = exiting s /\ sp s' = sp s.
Proof.
  intros C E.
  assert (K0 : (o, s') = ok s -> rel o = [] /\ need s' = need s /\ dialing s' = dialing s /\ est s' = est s /\ acts s' = acts s /\ xreq s' = xreq s /\ exiting s' = exiting s /\ sp s' = sp s).
  { intro X. injection X as -> ->. repeat split. }
  destruct e; try discriminate C; cbn [step] in E; unfold step_w, step_k, send, tell, ok in *.
  all: try (destruct (cl (cn s i)); try (destruct (mem i (conns s))); try (destruct (_ <? _)%nat); auto; injection E as <- <-; repeat split; fail).
  all: try (destruct (cw (cn s i)); try (destruct (_ <? _)%nat); auto; injection E as <- <-; repeat split; fail).
  all: try (destruct (cr (cn s i)); try (destruct (_ <? _)%nat); auto; injection E as <- <-; repeat split; fail).
  destruct (ck (cn s i)); try (destruct (_ <? _)%nat); auto; try (injection E as <- <-; repeat split; fail).
  all: destruct (notes (cn s i)); auto.
  all: destruct (match cs (cn s i) with CsClosing r w => (r, w) | _ => (false, false) end) as [r w];
    destruct (match n with NWrite => (r, true) | NRead => (true, w) end) as [r' w']; injection E as <- <-; repeat split.
Qed.

Lemma turn_idle s o1 s1 o s' : sp s = SIdle -> exiting s1 = false -> server_turn s (o1, s1) = (o, s') -> o = o1 /\ s' = w_sp s1 SIdle.
Proof.
  intros S0 X. unfold server_turn, after, ok. rewrite S0, X. cbn [andb]. intro E. injection E as <- <-. rewrite app_nil_r. auto.
Qed.
Definition allowed (c : Z) (e : ev) : Prop := match e with SetConns m => c <= m | Stop => False | _ => True end.
Definition conf_after (c : Z) (e : ev) : Z := match e with SetConns m => m | _ => c end.
Lemma RI_step t s c e o s' : RI t s c -> allowed c e -> step s e = (o, s') -> RI (t ++ o) s' (conf_after c e).
Proof.
  intros X A E. pose proof (GI_step t s e o s' (r_g t s c X) E) as G'.
  assert (ST : (o, s') = ok s -> RI (t ++ o) s' c) by (intro Y; injection Y as -> ->; now rewrite app_nil_r).
  destruct X as [G S0 Ex Xr Ac Le U D Up0].
  assert (FR : RI t s c) by (split; assumption).
  destruct (conn_ev e) eqn:CE.
  { destruct (conn_frame s e o s' CE E) as (F1 & F2 & F3 & F4 & F5 & F6 & F7 & F8).
    replace (conf_after c e) with c by (destruct e; try reflexivity; discriminate CE).
    eapply RI_frame; eauto; try congruence; try lia. }
  destruct e; try discriminate CE; cbn [step conf_after allowed] in *.
  - injection E as <- <-. eapply RI_frame; eauto; fields; auto; try lia. eapply chain_snoc; eauto.
  - destruct A.
  - rewrite S0 in E. unfold fix_connections in E. destruct (Z.ltb_spec (need s - (dialing s + est s)) 0); [lia|].
    destruct (open _ s) as [o1 s1] eqn:O. destruct (after s1) as [o2 s2] eqn:Af. injection E as <- <-.
    destruct (open_counts _ t s o1 s1 G O D Up0 U) as (I1 & I2 & I3 & I4 & I5 & I6 & I7 & I8 & I9 & I10 & I11).
    apply after_core in Af as (A1 & A2 & A3 & A4 & A5 & A6 & A7 & A8 & A9 & A10 & A11 & A12).
    destruct A12 as [A12 ->]; [congruence|]. rewrite app_nil_r in *.
    split; auto; try congruence; try lia.
  - destruct (ch s) as [|[i k] c0] eqn:Ch; [auto|].
    assert (Hd : In (i, k) (ch s)) by (rewrite Ch; now left).
    pose proof (g_msg t s G i k Hd) as Di.
    assert (Op : In (OOpen i) t).
    { apply (g_open t s G). destruct (le_lt_dec i (curId s)) as [L|L]; [destruct i as [|i]|]; try (unfold exists_conn; lia).
      - destruct (g_new t s G 0%nat) as (_ & _ & B3); [unfold exists_conn; lia|]. destruct (B3 _ Hd).
      - destruct (g_new t s G i) as (_ & _ & B3); [unfold exists_conn; lia|]. destruct (B3 _ Hd). }
    destruct (on_conn_error (w_ch s c0) (i, k)) as [o1 s1] eqn:OC.
    assert (Ex1 : exiting s1 = false).
    { unfold on_conn_error in OC. fields. destruct k; try (destruct (mem i (conns s))); injection OC as <- <-; exact Ex. }
    apply (turn_idle s o1 s1) in E as [-> ->]; [|assumption|assumption].
    unfold on_conn_error in OC. fields.
    assert (PN : ~ In OPanic (t ++ o1)) by apply (g_nopanic _ _ G').
    destruct k.
    + (* established *)
      injection OC as <- <-.
      assert (Nu : ~ In (OUp i) t) by (rewrite (g_up t s G); tauto).
      assert (Ne : ~ In (ODialErr i) t) by (rewrite (g_err t s G), Di; intros [Y _]; discriminate).
      assert (Nd : ~ In (ODown i) t) by (intro Y; apply U in Y; tauto).
      split; fields; auto; try lia.
      * intro j. rewrite !in_app_iff. cbn [In]. specialize (U j). intuition congruence.
      * apply (count_del _ (awaited t) _ i); [unfold awaited; tauto| |assumption].
        intro j. unfold awaited. rewrite !in_app_iff. cbn [In]. destruct (Nat.eq_dec j i) as [->|]; intuition congruence.
      * apply (count_add _ (known_up t) _ i); [unfold known_up; tauto| |assumption].
        intro j. unfold known_up. rewrite !in_app_iff. cbn [In]. destruct (Nat.eq_dec j i) as [->|]; intuition congruence.
    + (* not established *)
      assert (Nu : ~ In (OUp i) t) by (rewrite (g_up t s G), Di; intros [Y _]; discriminate).
      assert (Ne : ~ In (ODialErr i) t) by (rewrite (g_err t s G); tauto).
      destruct (mem i (conns s)); [|exfalso; injection OC as <- <-; apply PN; apply in_app_iff; cbn [In]; auto].
      injection OC as <- <-.
      assert (Z0 : forall (b : bool), count_of (dialing s - 1) (awaited (t ++ ODialErr i :: (if b then [OAllDisc] else []))) /\
        count_of (est s) (known_up (t ++ ODialErr i :: (if b then [OAllDisc] else []))) /\
        forall j, In (ODown j) (t ++ ODialErr i :: (if b then [OAllDisc] else [])) -> In (OUp j) (t ++ ODialErr i :: (if b then [OAllDisc] else []))).
      { intro b. split; [|split].
        - apply (count_del _ (awaited t) _ i); [unfold awaited; tauto| |assumption].
          intro j. unfold awaited. rewrite !in_app_iff. destruct b; cbn [In]; destruct (Nat.eq_dec j i) as [->|]; intuition congruence.
        - apply (count_ext _ (known_up t)); [|assumption].
          intro j. unfold known_up. rewrite !in_app_iff. destruct b; cbn [In]; intuition congruence.
        - intro j. rewrite !in_app_iff. specialize (U j). destruct b; cbn [In]; intuition congruence. }
      destruct (Z0 (est s =? 0)) as (Z1 & Z2 & Z3). split; fields; auto; lia.
    + (* down *)
      assert (Cl : cl (cn s i) = LOk) by (apply (proj1 (g_v t s G i)); rewrite Di; discriminate).
      assert (Iu : In (OUp i) t).
      { apply (g_up t s G). split; [now rewrite Cl|]. rewrite Ch. intros [Y|Y]; [discriminate|]. now apply (g_ord t s G i [] c0 Ch). }
      assert (Nd : ~ In (ODown i) t) by (rewrite (g_down t s G); tauto).
      injection OC as <- <-.
      assert (Z0 : forall (b : bool), count_of (dialing s) (awaited (t ++ ODown i :: (if b then [OAllDisc] else []))) /\
        count_of (est s - 1) (known_up (t ++ ODown i :: (if b then [OAllDisc] else []))) /\
        forall j, In (ODown j) (t ++ ODown i :: (if b then [OAllDisc] else [])) -> In (OUp j) (t ++ ODown i :: (if b then [OAllDisc] else []))).
      { intro b. split; [|split].
        - apply (count_ext _ (awaited t)); [|assumption].
          intro j. unfold awaited. rewrite !in_app_iff. destruct b; cbn [In]; intuition congruence.
        - apply (count_del _ (known_up t) _ i); [unfold known_up; tauto| |assumption].
          intro j. unfold known_up. rewrite !in_app_iff. destruct b; cbn [In]; destruct (Nat.eq_dec j i) as [->|]; intuition congruence.
        - intro j. rewrite !in_app_iff. specialize (U j). destruct b; cbn [In]; destruct (Nat.eq_dec j i) as [->|]; intuition congruence. }
      destruct (Z0 (est s - 1 =? 0)) as (Z1 & Z2 & Z3). split; fields; auto; lia.
    + (* closed *)
      destruct (mem i (conns s)); [|exfalso; injection OC as <- <-; apply PN; apply in_app_iff; cbn [In]; auto].
      injection OC as <- <-. split; fields; auto; try lia.
      * intro j. rewrite !in_app_iff. cbn [In]. specialize (U j). intuition congruence.
      * apply (count_ext _ (awaited t)); [|assumption]. intro j. unfold awaited. rewrite !in_app_iff. cbn [In]. intuition congruence.
      * apply (count_ext _ (known_up t)); [|assumption]. intro j. unfold known_up. rewrite !in_app_iff. cbn [In]. intuition congruence.
  - destruct (acts s) as [|n a] eqn:Acs; [auto|]. cbn [chain] in Ac. destruct Ac as [Ac1 Ac2].
    apply (turn_idle s [] (w_need (w_acts s a) n)) in E as [-> ->]; [|assumption|exact Ex].
    eapply RI_frame; eauto; fields; auto; lia.
  - rewrite Xr in E. auto.
  - rewrite S0 in E. auto.
  - rewrite S0 in E. auto.
  - rewrite S0 in E. auto.
Qed.
Lemma RI_run : forall es t s c o s', RI t s c -> grows c es -> run s es = (o, s') -> RI (t ++ o) s' (configured c es).
Proof.
  induction es as [|e es IH]; intros t s c o s' X Gr E; cbn [run] in E.
  - injection E as <- <-. now rewrite app_nil_r.
  - destruct (step s e) as [o1 s1] eqn:St. destruct (run s1 es) as [o2 s2] eqn:Rn. injection E as <- <-. rewrite app_assoc.
    assert (A : allowed c e /\ grows (conf_after c e) es) by (destruct e; cbn [grows] in Gr; cbn; tauto).
    destruct A as [A1 A2].
    replace (configured c (e :: es)) with (configured (conf_after c e) es) by (destruct e; reflexivity).
    eapply IH; [eapply RI_step; eauto|assumption|assumption].
Qed.
Lemma RI_init n o s : 0 <= n -> s_init n = (o, s) -> RI o s n.
Proof.
  intros N E. pose proof (GI_init n o s E) as G. unfold s_init in E.
  match type of E with open _ ?x = _ => set (s0 := x) in * end.
  assert (G0 : GI [] s0).
  { assert (Y : s_init 0 = ([], mkSt [] 0 (fun _ => new_conn) 0 0 0 0 [] [] false false SIdle)) by reflexivity.
    apply GI_init in Y. eapply GI_ext; [| | | | |exact Y]; reflexivity. }
  destruct (open_counts _ [] s0 o s G0 E) as (I1 & I2 & I3 & I4 & I5 & I6 & I7 & I8 & I9 & I10 & I11).
  - exists []. split; [constructor|]. split; [intro i; unfold awaited; cbn [In]; tauto|reflexivity].
  - exists []. split; [constructor|]. split; [intro i; unfold known_up; cbn [In]; tauto|reflexivity].
  - intros i [].
  - unfold s0 in *; fields. cbn [app] in *. split; auto; try congruence; try lia. rewrite I5, I6. reflexivity.
Qed.
Lemma start_GI n es t s : start n es = (t, s) -> GI t s.
Proof.
  unfold start. destruct (s_init n) as [o0 s0] eqn:I0. destruct (run s0 es) as [o1 s1] eqn:R1. intro E. injection E as <- <-.
  apply GI_init in I0. revert o0 s0 o1 s1 I0 R1.
  induction es as [|e es IH]; intros o0 s0 o1 s1 G R1; cbn [run] in R1.
  - injection R1 as <- <-. now rewrite app_nil_r.
  - destruct (step s0 e) as [o2 s2] eqn:St. destruct (run s2 es) as [o3 s3] eqn:Rn. injection R1 as <- <-. rewrite app_assoc.
    eapply IH; [eapply GI_step; eauto|eassumption].
Qed.
Lemma start_RI n es t s : 0 <= n -> grows n es -> start n es = (t, s) -> RI t s (configured n es).
Proof.
  intros N Gr. unfold start. destruct (s_init n) as [o0 s0] eqn:I0. destruct (run s0 es) as [o1 s1] eqn:R1. intro E. injection E as <- <-.
  eapply RI_run; eauto. now apply RI_init.
Qed.

(** more about one connection *)
Definition valid2 (c : conn) : Prop := (cl c = LOk -> cw c <> WOff) /\ (cs c = CsDialing -> cl c <> LOk).
Lemma cn_after s o s' : after s = (o, s') -> cn s' = cn s.
Proof. unfold after, ok. destruct (_ && _); intro E; injection E as <- <-; reflexivity. Qed.
Lemma cn_open : forall k s o s', open k s = (o, s') -> (forall i, valid2 (cn s i)) -> forall i, valid2 (cn s' i).
Proof.
  induction k as [|k IH]; intros s o s' E V; cbn [open] in E; [injection E as <- <-; assumption|].
  destruct (open k _) as [o1 s1] eqn:O. injection E as <- <-. eapply IH; [exact O|]. fields. intro i. spl i (S (curId s)); [|auto].
  split; fields; discriminate.
Qed.
Lemma valid2_step s e o s' : step s e = (o, s') -> (forall i, valid2 (cn s i)) -> forall i, valid2 (cn s' i).
Proof.
  intros E V.
  assert (P : forall j c s1, (valid2 (cn s j) -> valid2 c) -> cn s1 = upd (cn s) j c -> forall i, valid2 (cn s1 i)).
  { intros j c s1 X Y i. rewrite Y. spl i j; auto. }
  assert (Q : cn s' = cn s -> forall i, valid2 (cn s' i)) by (intros ->; assumption).
  Local Ltac pp j := refine (_ : forall i, valid2 (cn _ i)); match goal with P : forall j c s1, _ |- _ => eapply (P j); [|reflexivity] end; unfold valid2; fields.
  assert (SND : forall j k c, (valid2 (cn s j) -> valid2 c) -> send s j k c = (o, s') -> forall i, valid2 (cn s' i)).
  { intros j k c X. unfold send, ok. destruct (_ <? _)%nat; intro Y; injection Y as <- <-; [|auto]. eapply (P j c); [assumption|reflexivity]. }
  assert (TLL : forall j k c, (valid2 (cn s j) -> valid2 c) -> tell s j k c = (o, s') -> forall i, valid2 (cn s' i)).
  { intros j k c X. unfold tell, ok. destruct (_ <? _)%nat; intro Y; injection Y as <- <-; [|auto]. eapply (P j); [|reflexivity]. exact X. }
  destruct e; cbn [step] in E.
  - injection E as <- <-. auto.
  - injection E as <- <-. auto.
  - unfold fix_connections in E. destruct (sp s); try (injection E as <- <-; auto; fail).
    destruct (_ <? 0); [injection E as <- <-; auto|]. destruct (open _ s) as [o1 s1] eqn:O. destruct (after s1) as [o2 s2] eqn:A.
    injection E as <- <-. rewrite (cn_after _ _ _ A). eapply cn_open; eauto.
  - destruct (ch s) as [|[j k] c0]; [injection E as <- <-; auto|]. unfold server_turn in E. destruct (sp s); try (injection E as <- <-; auto; fail).
    destruct (on_conn_error _ _) as [o1 s1] eqn:O. destruct (after s1) as [o2 s2] eqn:A. injection E as <- <-. apply Q. rewrite (cn_after _ _ _ A).
    unfold on_conn_error in O. fields. destruct k; try destruct (mem _ _); injection O as <- <-; reflexivity.
  - destruct (acts s); [injection E as <- <-; auto|]. unfold server_turn, ok in E. destruct (sp s); try (injection E as <- <-; auto; fail).
    destruct (after _) as [o2 s2] eqn:A. injection E as <- <-. apply Q. now rewrite (cn_after _ _ _ A).
  - destruct (xreq s); [|injection E as <- <-; auto]. unfold server_turn, ok in E. destruct (sp s); try (injection E as <- <-; auto; fail).
    destruct (after _) as [o2 s2] eqn:A. injection E as <- <-. apply Q. now rewrite (cn_after _ _ _ A).
  - destruct (sp s); try (injection E as <- <-; auto; fail). destruct (mem i todo); [|injection E as <- <-; auto].
    destruct (cs (cn s i)) eqn:C; injection E as <- <-; auto; eapply (P i); try reflexivity; unfold valid2; fields; tauto.
  - destruct (sp s); try (injection E as <- <-; auto; fail). destruct todo; [|injection E as <- <-; auto]. apply Q. now apply cn_after in E.
  - destruct (cl (cn s i)) eqn:C; try (injection E as <- <-; auto; fail). destruct (mem i (conns s)); injection E as <- <-; [|auto].
    eapply (P i); [|reflexivity]. unfold valid2; fields. intros _; split; [let X := fresh in intro X; discriminate X|intros _; discriminate].
  - destruct (cl (cn s i)) eqn:C; injection E as <- <-; auto. eapply (P i); [|reflexivity]. unfold valid2; fields. destruct b; (intros _; split; [let X := fresh in intro X; discriminate X|intros _; discriminate]).
  - destruct (cl (cn s i)) eqn:C; try (injection E as <- <-; auto; fail); revert E; apply SND; unfold valid2; fields; intros _; (split; [let X := fresh in intro X; discriminate X|intros _; discriminate]).
  - destruct (cl (cn s i)) eqn:C; injection E as <- <-; auto; (eapply (P i); [|reflexivity]); unfold valid2; fields; intros _; (split; intro; discriminate || congruence).
  - unfold step_w in E. destruct (cw (cn s i)) eqn:C; try (injection E as <- <-; auto; fail).
    1-3: injection E as <- <-; (eapply (P i); [|reflexivity]); unfold valid2; fields; intros [_ X]; split; [destruct (stopped (cn s i))|]; auto; discriminate.
    + revert E; apply TLL; auto. unfold valid2; fields. intros [_ X]. split; [discriminate|assumption].
    + revert E; apply SND; auto. unfold valid2; fields. intros [_ X]. split; [discriminate|assumption].
  - destruct (cw (cn s i)) eqn:C; injection E as <- <-; auto; (eapply (P i); [|reflexivity]); unfold valid2; fields; intros [_ X]; split; auto; discriminate.
  - destruct (cw (cn s i)) eqn:C; injection E as <- <-; auto; (eapply (P i); [|reflexivity]); unfold valid2; fields; intros [_ X]; split; auto; discriminate.
  - destruct (sp s); try (injection E as <- <-; auto; fail). destruct (cw (cn s i)) eqn:C; try (injection E as <- <-; auto; fail).
    destruct (_ =? _)%nat; [|injection E as <- <-; auto].
    assert (Y : cn s' = upd (cn s) i (c_cw (cn s i) WNote)).
    { destruct (k + 1 =? 0); [apply cn_after in E|injection E as <- <-]; destruct d; try rewrite E; reflexivity. }
    eapply (P i); [|exact Y]. unfold valid2; fields. intros [_ X]. split; [discriminate|assumption].
  - destruct (cr (cn s i)) eqn:C; injection E as <- <-; auto; (eapply (P i); [|reflexivity]); unfold valid2; fields; tauto.
  - destruct (cr (cn s i)) eqn:C; try (injection E as <- <-; auto; fail). revert E; apply TLL; auto.
  - unfold step_k in E. destruct (ck (cn s i)) eqn:C; try (injection E as <- <-; auto; fail).
    + destruct (notes (cn s i)) as [|n ns]; [injection E as <- <-; auto|]. 
      destruct (match cs (cn s i) with CsClosing r w => (r, w) | _ => (false, false) end) as [r w]. destruct (match n with NWrite => (r, true) | NRead => (true, w) end) as [r1 w1].
      injection E as <- <-. eapply (P i); [|reflexivity]. unfold valid2; fields. intros [X _]. split; [assumption|discriminate].
    + revert E; apply SND; auto.
    + injection E as <- <-. eapply (P i); [|reflexivity]. unfold valid2; fields. tauto.
Qed.
Lemma run_ind (P : list obs -> st -> Prop) n es t s :
  (forall o s0, s_init n = (o, s0) -> P o s0) ->
  (forall t0 s0 e o s1, P t0 s0 -> step s0 e = (o, s1) -> P (t0 ++ o) s1) ->
  start n es = (t, s) -> P t s.
Proof.
  intros H1 H2. unfold start. destruct (s_init n) as [o0 s0] eqn:I0. destruct (run s0 es) as [o1 s1] eqn:R1. intro E. injection E as <- <-.
  specialize (H1 _ _ eq_refl). revert o0 s0 o1 s1 I0 R1 H1.
  assert (X : forall es o0 s0 o1 s1, run s0 es = (o1, s1) -> P o0 s0 -> P (o0 ++ o1) s1).
  { induction es0 as [|e es0 IH]; intros o0 s0 o1 s1 R1 G; cbn [run] in R1.
    - injection R1 as <- <-. now rewrite app_nil_r.
    - destruct (step s0 e) as [o2 s2] eqn:St. destruct (run s2 es0) as [o3 s3] eqn:Rn. injection R1 as <- <-. rewrite app_assoc. eauto. }
  intros. eauto.
Qed.
Lemma start_valid2 n es t s : start n es = (t, s) -> forall i, valid2 (cn s i).
Proof.
  apply (run_ind (fun _ s => forall i, valid2 (cn s i))).
  - intros o s0 E. eapply cn_open; [exact E|]. intro i. split; fields; discriminate.
  - intros t0 s0 e o s1 V St. eapply valid2_step; eauto.
Qed.

Definition msg_dec : forall a b : nat * kind, {a = b} + {a <> b}.
Proof. decide equality; [decide equality|apply Nat.eq_dec]. Defined.

(** * A loop which waits for a writer that has gone *)
Definition blocked (s : st) : Prop := exists i d k todo,
  sp s = SStop i d k todo /\ stopped (cn s i) = true /\ cw (cn s i) <> WSel1 /\ cw (cn s i) <> WSel2.
Definition quiet (o : list obs) : Prop := forall x, In x o -> match x with OFlush _ => True | _ => False end.
Lemma quiet_nil : quiet [].
Proof. intros x []. Qed.
Lemma blocked_step s e o s' : blocked s -> step s e = (o, s') -> blocked s' /\ quiet o.
Proof.
  intros (j & d & k & todo & Sp & St & W1 & W2) E.
  assert (SAME : (o, s') = ok s -> blocked s' /\ quiet o).
  { intro X. injection X as -> ->. split; [exists j, d, k, todo; auto|apply quiet_nil]. }
  assert (CH : forall i c o1 s1, sp s1 = sp s -> cn s1 = upd (cn s) i c -> quiet o1 -> stopped c = stopped (cn s i) ->
    (i = j -> cw c <> WSel1 /\ cw c <> WSel2) -> blocked s1 /\ quiet o1).
  { intros i c o1 s1 A B Q C D. split; [|assumption]. exists j, d, k, todo. rewrite A, B. spl j i; [rewrite C|]; auto. }
  assert (SND : forall i c x, stopped c = stopped (cn s i) -> (i = j -> cw c <> WSel1 /\ cw c <> WSel2) -> send s i x c = (o, s') -> blocked s' /\ quiet o).
  { intros i c x A B. unfold send. destruct (_ <? _)%nat; [|auto]. intro X. injection X as <- <-. eapply (CH i c); auto using quiet_nil. }
  assert (TLL : forall i c x, stopped c = stopped (cn s i) -> (i = j -> cw c <> WSel1 /\ cw c <> WSel2) -> tell s i x c = (o, s') -> blocked s' /\ quiet o).
  { intros i c x A B. unfold tell. destruct (_ <? _)%nat; [|auto]. intro X. injection X as <- <-. eapply (CH i); try reflexivity; fields; auto using quiet_nil. }
  assert (NOW : forall i, i = j -> cw (cn s i) <> WSel1 /\ cw (cn s i) <> WSel2) by (intros i ->; auto).
  destruct e; cbn [step] in E; unfold server_turn in E; rewrite ?Sp in E; auto.
  - injection E as <- <-. split; [exists j, d, k, todo; auto|apply quiet_nil].
  - injection E as <- <-. split; [exists j, d, k, todo; auto|apply quiet_nil].
  - destruct (ch s); auto.
  - destruct (acts s); auto.
  - destruct (xreq s); auto.
  - destruct (cl (cn s i)); auto. destruct (mem i (conns s)); auto. injection E as <- <-. eapply (CH i); try reflexivity; fields; auto using quiet_nil.
  - destruct (cl (cn s i)); auto. injection E as <- <-. eapply (CH i); try reflexivity; fields; auto using quiet_nil.
  - destruct (cl (cn s i)); auto; revert E; apply SND; fields; auto.
  - destruct (cl (cn s i)); auto; injection E as <- <-; (eapply (CH i); try reflexivity; fields; auto using quiet_nil).
    intros _. split; discriminate.
  - unfold step_w in E. destruct (cw (cn s i)) eqn:C; auto.
    + injection E as <- <-. eapply (CH i); try reflexivity; fields; auto using quiet_nil. intros ->. rewrite St. split; discriminate.
    + destruct (Nat.eq_dec i j) as [->|N]; [congruence|]. injection E as <- <-. eapply (CH i); try reflexivity; fields; auto using quiet_nil.
    + injection E as <- <-. eapply (CH i); try reflexivity; fields; auto using quiet_nil. split; discriminate.
    + revert E. apply TLL; fields; auto. split; discriminate.
    + revert E. apply SND; fields; auto. split; discriminate.
  - destruct (cw (cn s i)) eqn:C; auto; injection E as <- <-; (eapply (CH i); try reflexivity; fields; auto using quiet_nil); split; discriminate.
  - destruct (cw (cn s i)) eqn:C; auto; injection E as <- <-; (eapply (CH i); try reflexivity; fields; auto using quiet_nil); split; discriminate.
  - destruct (cw (cn s i)) eqn:C; auto. destruct (Nat.eqb_spec i j) as [->|N]; [congruence|auto].
  - destruct (cr (cn s i)); auto. injection E as <- <-. eapply (CH i); try reflexivity; fields; auto using quiet_nil.
  - destruct (cr (cn s i)); auto. revert E. apply TLL; fields; auto.
  - unfold step_k in E. destruct (ck (cn s i)) eqn:C; auto.
    + destruct (notes (cn s i)) as [|n ns]; auto.
      destruct (match cs (cn s i) with CsClosing r w => (r, w) | _ => (false, false) end) as [r w]. destruct (match n with NWrite => (r, true) | NRead => (true, w) end) as [r1 w1].
      injection E as <- <-. eapply (CH i); try reflexivity; fields; auto using quiet_nil.
    + revert E. apply SND; fields; auto.
    + injection E as <- <-. eapply (CH i); try reflexivity; fields; auto. intros x [<-|[]]. exact Logic.I.
Qed.
Lemma blocked_hung s : blocked s -> hung s.
Proof.
  intros B es. revert s B. induction es as [|e es IH]; intros s B t' s' E x X; cbn [run] in E.
  - injection E as <- <-. destruct X.
  - destruct (step s e) as [o1 s1] eqn:St. destruct (run s1 es) as [o2 s2] eqn:R. injection E as <- <-.
    destruct (blocked_step s e o1 s1 B St) as [B1 Q]. apply in_app_iff in X as [X|X]; [now apply Q|]. eapply IH; eauto.
Qed.

(** * A loop that has ended, with its channel full *)
Definition jammed (s : st) (i : nat) : Prop := sp s = SDone /\ (cap <= length (ch s))%nat /\ ck (cn s i) = KMsg.
Lemma jammed_step s i e o s' : jammed s i -> valid (cn s i) -> step s e = (o, s') -> jammed s' i /\ ~ In (OFlush i) o.
Proof.
  intros (Sp & Fu & Km) V E.
  assert (SAME : (o, s') = ok s -> jammed s' i /\ ~ In (OFlush i) o).
  { intro X. injection X as -> ->. split; [unfold jammed; auto|intros []]. }
  assert (CH : forall j c o1 s1, sp s1 = sp s -> ch s1 = ch s -> cn s1 = upd (cn s) j c -> (i = j -> ck c = KMsg) -> ~ In (OFlush i) o1 -> jammed s1 i /\ ~ In (OFlush i) o1).
  { intros j c o1 s1 A B C D X. split; [|assumption]. unfold jammed. rewrite A, B, C. split; [assumption|]. split; [assumption|]. spl i j; auto. }
  assert (SND : forall j c x, send s j x c = (o, s') -> jammed s' i /\ ~ In (OFlush i) o).
  { intros j c x. unfold send. destruct (Nat.ltb_spec (length (ch s)) cap); [lia|auto]. }
  assert (TLL : forall j c x, (i = j -> ck c = KMsg) -> tell s j x c = (o, s') -> jammed s' i /\ ~ In (OFlush i) o).
  { intros j c x A. unfold tell. destruct (_ <? _)%nat; [|auto]. intro X. injection X as <- <-. eapply (CH j); try reflexivity; fields; auto. }
  assert (NOW : forall j, i = j -> ck (cn s j) = KMsg) by (intros j <-; auto).
  assert (Cl : cl (cn s i) = LOk) by (apply V; rewrite Km; discriminate).
  destruct e as [| | | | | | | |j|j|j|j|j|j|j|j|j|j|j]; cbn [step] in E; unfold server_turn in E; rewrite ?Sp in E; auto.
  - injection E as <- <-. split; [split; auto|intros []].
  - injection E as <- <-. split; [split; auto|intros []].
  - destruct (ch s); auto.
  - destruct (acts s); auto.
  - destruct (xreq s); auto.
  - destruct (cl (cn s j)) eqn:C; auto. destruct (mem j (conns s)); auto. injection E as <- <-. eapply (CH j); try reflexivity; fields; auto.
  - destruct (cl (cn s j)); auto. injection E as <- <-. eapply (CH j); try reflexivity; fields; auto.
  - destruct (cl (cn s j)); auto; revert E; apply SND.
  - destruct (cl (cn s j)) eqn:C; auto; injection E as <- <-; (eapply (CH j); try reflexivity; fields; auto).
    intros <-. congruence.
  - unfold step_w in E. destruct (cw (cn s j)) eqn:C; auto; try (injection E as <- <-; eapply (CH j); try reflexivity; fields; auto).
    + revert E. apply TLL; fields; auto.
    + revert E. apply SND.
  - destruct (cw (cn s j)) eqn:C; auto; injection E as <- <-; (eapply (CH j); try reflexivity; fields; auto).
  - destruct (cw (cn s j)) eqn:C; auto; injection E as <- <-; (eapply (CH j); try reflexivity; fields; auto).
  - destruct (cr (cn s j)); auto. injection E as <- <-. eapply (CH j); try reflexivity; fields; auto.
  - destruct (cr (cn s j)); auto. revert E. apply TLL; fields; auto.
  - unfold step_k in E. destruct (ck (cn s j)) eqn:C; auto.
    + destruct (notes (cn s j)) as [|n ns]; auto.
      destruct (match cs (cn s j) with CsClosing r w => (r, w) | _ => (false, false) end) as [r w]. destruct (match n with NWrite => (r, true) | NRead => (true, w) end) as [r1 w1].
      injection E as <- <-. eapply (CH j); try reflexivity; fields; auto. intros <-. congruence.
    + revert E. apply SND.
    + injection E as <- <-. eapply (CH j); try reflexivity; fields; auto.
      * intros <-. congruence.
      * intros [X|[]]. injection X as ->. congruence.
Qed.
Lemma jammed_never t s i : GI t s -> jammed s i -> never_flushed s i.
Proof.
  intros G J es. revert t s G J. induction es as [|e es IH]; intros t s G J t' s' E X; cbn [run] in E.
  - injection E as <- <-. destruct X.
  - destruct (step s e) as [o1 s1] eqn:St. destruct (run s1 es) as [o2 s2] eqn:R. injection E as <- <-.
    destruct (jammed_step s i e o1 s1 J (g_v t s G i) St) as [B1 Q]. apply in_app_iff in X as [X|X]; [now apply Q|].
    eapply (IH (t ++ o1) s1); eauto. eapply GI_step; eauto.
Qed.

(** * AllDisconnected *)
Definition AD (t : list obs) : Prop := forall a b, t = a ++ OAllDisc :: b -> forall i, ~ known_up a i.
Lemma count_zero P : count_of 0 P -> forall i, ~ P i.
Proof. intros (l & _ & I0 & L) i X. apply I0 in X. destruct l; [destruct X|cbn in L; lia]. Qed.
Lemma ad_after2 s o s' : after s = (o, s') -> o = [] \/ o = [OEnd].
Proof. unfold after, ok. destruct (_ && _); intro E; injection E as <- <-; auto. Qed.
Lemma ad_after s o s' : after s = (o, s') -> ~ In OAllDisc o /\ est s' = est s.
Proof.
  unfold after, ok. destruct (_ && _); intro E; injection E as <- <-; (split; [|reflexivity]).
  - intros [X|[]]; discriminate.
  - intros [].
Qed.
Lemma ad_open : forall k s o s', open k s = (o, s') -> ~ In OAllDisc o.
Proof.
  induction k as [|k IH]; intros s o s' E; cbn [open] in E; [injection E as <- <-; intros []|].
  destruct (open k _) as [o1 s1] eqn:O. injection E as <- <-. intros [X|X]; [discriminate|]. eapply IH; eauto.
Qed.
Lemma ad_shape s e o s' : step s e = (o, s') ->
  ~ In OAllDisc o \/ exists x r, o = x :: OAllDisc :: r /\ x <> OAllDisc /\ (r = [] \/ r = [OEnd]) /\ est s' = 0.
Proof.
  assert (SND : forall j c x, send s j x c = (o, s') -> o = []).
  { intros j c x. unfold send, ok. destruct (_ <? _)%nat; intro E; now injection E as <- <-. }
  assert (TLL : forall j c x, tell s j x c = (o, s') -> o = []).
  { intros j c x. unfold tell, ok. destruct (_ <? _)%nat; intro E; now injection E as <- <-. }
  assert (NIL : forall s1, (([] : list obs), s1) = (o, s') -> ~ In OAllDisc o) by (intros s1 X; injection X as <- _; intros []).
  intro E. destruct e as [| | | | | |i| |i|i|i|i|i|i|i|i|i|i|i]; cbn [step] in E; unfold ok in E; try (left; eapply NIL; exact E).
  - left. destruct (sp s); try (eapply NIL; exact E). unfold fix_connections in E. destruct (_ <? 0); [eapply NIL; exact E|].
    destruct (open _ s) as [o1 s1] eqn:O. destruct (after s1) as [o2 s2] eqn:A. injection E as <- <-.
    rewrite in_app_iff. apply ad_open in O. apply ad_after in A. tauto.
  - destruct (ch s) as [|[i k] c]; [left; eapply NIL; exact E|]. unfold server_turn in E. destruct (sp s); try (left; eapply NIL; exact E).
    destruct (on_conn_error _ _) as [o1 s1] eqn:O. destruct (after s1) as [o2 s2] eqn:A. injection E as <- <-. pose proof (ad_after2 _ _ _ A) as A3. apply ad_after in A as [A1 A2].
    unfold on_conn_error in O. fields. destruct k.
    + injection O as <- <-. left. intros [X|X]; [discriminate|tauto].
    + destruct (mem i (conns s)); injection O as <- <-; fields.
      * destruct (Z.eqb_spec (est s) 0) as [Z0|Z0].
        -- right. exists (ODialErr i), o2. split; [reflexivity|]. split; [discriminate|]. split; [assumption|congruence].
        -- left. intros [X|X]; [discriminate|tauto].
      * left. intros [X|[X|X]]; [discriminate|discriminate|tauto].
    + injection O as <- <-; fields. destruct (Z.eqb_spec (est s - 1) 0) as [Z0|Z0].
      * right. exists (ODown i), o2. split; [reflexivity|]. split; [discriminate|]. split; [assumption|congruence].
      * left. intros [X|X]; [discriminate|tauto].
    + left. destruct (mem i (conns s)); injection O as <- <-; fields; (intros [X|X]; [discriminate|]); [tauto|]. destruct X as [X|X]; [discriminate|tauto].
  - left. destruct (acts s); [eapply NIL; exact E|]. unfold server_turn, ok in E. destruct (sp s); try (eapply NIL; exact E).
    destruct (after _) as [o2 s2] eqn:A. injection E as <- <-. apply ad_after in A. tauto.
  - left. destruct (xreq s); [|eapply NIL; exact E]. unfold server_turn, ok in E. destruct (sp s); try (eapply NIL; exact E).
    destruct (after _) as [o2 s2] eqn:A. injection E as <- <-. apply ad_after in A. tauto.
  - left. destruct (sp s); try (eapply NIL; exact E). destruct (mem i todo); [|eapply NIL; exact E].
    destruct (cs (cn s i)); injection E as <- <-; cbn [In]; intuition discriminate.
  - left. destruct (sp s); try (eapply NIL; exact E). destruct todo; [|eapply NIL; exact E]. apply ad_after in E. tauto.
  - left. destruct (cl (cn s i)); try (eapply NIL; exact E). destruct (mem i (conns s)); eapply NIL; exact E.
  - left. destruct (cl (cn s i)); eapply NIL; exact E.
  - left. destruct (cl (cn s i)); try (eapply NIL; exact E); apply SND in E as ->; intros [].
  - left. destruct (cl (cn s i)); eapply NIL; exact E.
  - left. unfold step_w, ok in E. destruct (cw (cn s i)); try (eapply NIL; exact E); [apply TLL in E as ->|apply SND in E as ->]; intros [].
  - left. destruct (cw (cn s i)); eapply NIL; exact E.
  - left. destruct (cw (cn s i)); eapply NIL; exact E.
  - left. destruct (sp s); try (eapply NIL; exact E). destruct (cw (cn s i)); try (eapply NIL; exact E).
    destruct (_ =? _)%nat; [|eapply NIL; exact E]. destruct (k + 1 =? 0); [|eapply NIL; exact E]. apply ad_after in E. tauto.
  - left. destruct (cr (cn s i)); eapply NIL; exact E.
  - left. destruct (cr (cn s i)); try (eapply NIL; exact E). apply TLL in E as ->. intros [].
  - left. unfold step_k, ok in E. destruct (ck (cn s i)); try (eapply NIL; exact E).
    + destruct (notes (cn s i)) as [|n ns]; [eapply NIL; exact E|].
      destruct (match cs (cn s i) with CsClosing r w => (r, w) | _ => (false, false) end) as [r w]. destruct (match n with NWrite => (r, true) | NRead => (true, w) end) as [r1 w1].
      eapply NIL; exact E.
    + apply SND in E as ->. intros [].
    + injection E as <- <-. intros [X|[]]. discriminate.
Qed.
Lemma cut_last {A} (dec : forall a b : A, {a = b} + {a <> b}) (t : list A) x a b r : ~ In x r -> t ++ x :: r = a ++ x :: b ->
  (a = t /\ b = r) \/ exists b', t = a ++ x :: b'.
Proof.
  intros N. revert a. induction t as [|y t IH]; intros [|z a] E; cbn [app] in E.
  - injection E as ->. auto.
  - injection E as -> E. exfalso. apply N. rewrite E. apply in_or_app. right. now left.
  - injection E as -> E. right. now exists t.
  - injection E as -> E. apply IH in E as [[-> ->]|[b' ->]]; [auto|]. right. now exists b'.
Qed.
Lemma cut_none {A} (t o a b : list A) x : ~ In x o -> t ++ o = a ++ x :: b -> exists b', t = a ++ x :: b'.
Proof.
  intros N. revert a. induction t as [|y t IH]; intros [|z a] E; cbn [app] in E.
  - exfalso. apply N. rewrite E. now left.
  - exfalso. apply N. rewrite E. right. apply in_or_app. right. now left.
  - injection E as -> E. now exists t.
  - injection E as -> E. apply IH in E as [b' ->]. now exists b'.
Qed.
Definition obs_dec : forall a b : obs, {a = b} + {a <> b}.
Proof. decide equality; apply Nat.eq_dec. Defined.
Lemma AD_run : forall es t s c o s', RI t s c -> AD t -> grows c es -> run s es = (o, s') -> AD (t ++ o).
Proof.
  induction es as [|e es IH]; intros t s c o s' X Y Gr E; cbn [run] in E.
  - injection E as <- <-. now rewrite app_nil_r.
  - destruct (step s e) as [o1 s1] eqn:St. destruct (run s1 es) as [o2 s2] eqn:Rn. injection E as <- <-. rewrite app_assoc.
    assert (A : allowed c e /\ grows (conf_after c e) es) by (destruct e; cbn [grows] in Gr; cbn; tauto).
    destruct A as [A1 A2]. pose proof (RI_step t s c e o1 s1 X A1 St) as X1. eapply IH; [exact X1| |exact A2|exact Rn].
    intros a b Ea. destruct (ad_shape s e o1 s1 St) as [N|(x & r & -> & Nx & Nr & Z0)].
    + apply cut_none in Ea as [b' ->]; [|assumption]. eapply Y. reflexivity.
    + change (x :: OAllDisc :: r) with ([x] ++ OAllDisc :: r) in Ea. rewrite app_assoc in Ea.
      apply (cut_last obs_dec) in Ea as [[-> ->]|[b' Eb]].
      * pose proof (r_u _ _ _ X1) as U. rewrite Z0 in U. intros i Ku. apply (count_zero _ U i). revert Ku.
        unfold known_up. rewrite !in_app_iff. cbn [In]. destruct Nr as [-> | ->]; cbn [In]; intuition congruence.
      * apply cut_none in Eb as [b2 ->]; [eapply Y; reflexivity|]. intros [Q|[]]. congruence.
      * destruct Nr as [-> | ->]; cbn [In]; intuition congruence.
Qed.

(** * What a connection's control loop knows *)
Record valid3 (c : conn) : Prop := {
  v_off : cl c <> LOk -> cr c = ROff /\ cw c = WOff /\ notes c = [] /\ ck c = KOff;
  v_nw : In NWrite (notes c) -> wdone c;
  v_nr : In NRead (notes c) -> cr c = REnd;
  v_cs : ck c <> KOff -> match cs c with CsClosing r w => (r = true -> cr c = REnd) /\ (w = true -> wdone c) | _ => True end;
  v_ck : match ck c with KMsg | KFlush | KEnd => wdone c /\ cr c = REnd | _ => True end }.
Lemma cn_open3 : forall k s o s', open k s = (o, s') -> (forall i, valid3 (cn s i)) -> forall i, valid3 (cn s' i).
Proof.
  induction k as [|k IH]; intros s o s' E V; cbn [open] in E; [injection E as <- <-; assumption|].
  destruct (open k _) as [o1 s1] eqn:O. injection E as <- <-. eapply IH; [exact O|]. fields. intro i. spl i (S (curId s)); [|auto].
  split; fields; cbn [In]; tauto.
Qed.
Lemma valid3_step s e o s' : step s e = (o, s') -> (forall i, valid3 (cn s i)) -> forall i, valid3 (cn s' i).
Proof.
  intros E V.
  assert (P : forall j c s1, (valid3 (cn s j) -> valid3 c) -> cn s1 = upd (cn s) j c -> forall i, valid3 (cn s1 i)).
  { intros j c s1 X Y i. rewrite Y. spl i j; auto. }
  assert (Q : cn s' = cn s -> forall i, valid3 (cn s' i)) by (intros ->; assumption).
  assert (SND : forall j k c, (valid3 (cn s j) -> valid3 c) -> send s j k c = (o, s') -> forall i, valid3 (cn s' i)).
  { intros j k c X. unfold send, ok. destruct (_ <? _)%nat; intro Y; injection Y as <- <-; [|auto]. eapply (P j c); [assumption|reflexivity]. }
  assert (TLL : forall j k c, (valid3 (cn s j) -> valid3 (c_notes c (notes c ++ [k]))) -> tell s j k c = (o, s') -> forall i, valid3 (cn s' i)).
  { intros j k c X. unfold tell, ok. destruct (_ <? _)%nat; intro Y; injection Y as <- <-; [|auto]. eapply (P j); [|reflexivity]. exact X. }
  Local Ltac v3 := intros [X1 X2 X3 X4 X5]; unfold wdone in *; split; unfold wdone; fields.
  destruct e; cbn [step] in E.
  - injection E as <- <-. auto.
  - injection E as <- <-. auto.
  - unfold fix_connections in E. destruct (sp s); try (injection E as <- <-; auto; fail).
    destruct (_ <? 0); [injection E as <- <-; auto|]. destruct (open _ s) as [o1 s1] eqn:O. destruct (after s1) as [o2 s2] eqn:A.
    injection E as <- <-. rewrite (cn_after _ _ _ A). eapply cn_open3; eauto.
  - destruct (ch s) as [|[j k] c0]; [injection E as <- <-; auto|]. unfold server_turn in E. destruct (sp s); try (injection E as <- <-; auto; fail).
    destruct (on_conn_error _ _) as [o1 s1] eqn:O. destruct (after s1) as [o2 s2] eqn:A. injection E as <- <-. apply Q. rewrite (cn_after _ _ _ A).
    unfold on_conn_error in O. fields. destruct k; try destruct (mem _ _); injection O as <- <-; reflexivity.
  - destruct (acts s); [injection E as <- <-; auto|]. unfold server_turn, ok in E. destruct (sp s); try (injection E as <- <-; auto; fail).
    destruct (after _) as [o2 s2] eqn:A. injection E as <- <-. apply Q. now rewrite (cn_after _ _ _ A).
  - destruct (xreq s); [|injection E as <- <-; auto]. unfold server_turn, ok in E. destruct (sp s); try (injection E as <- <-; auto; fail).
    destruct (after _) as [o2 s2] eqn:A. injection E as <- <-. apply Q. now rewrite (cn_after _ _ _ A).
  - destruct (sp s); try (injection E as <- <-; auto; fail). destruct (mem i todo); [|injection E as <- <-; auto].
    destruct (cs (cn s i)) eqn:C; injection E as <- <-; auto; (eapply (P i); [|reflexivity]); v3; rewrite ?C in *; auto.
  - destruct (sp s); try (injection E as <- <-; auto; fail). destruct todo; [|injection E as <- <-; auto]. apply Q. now apply cn_after in E.
  - destruct (cl (cn s i)) eqn:C; try (injection E as <- <-; auto; fail). destruct (mem i (conns s)); injection E as <- <-; [|auto].
    eapply (P i); [|reflexivity]. v3; auto. intros _. apply X1. congruence.
  - destruct (cl (cn s i)) eqn:C; injection E as <- <-; auto. eapply (P i); [|reflexivity]. v3; auto. intros _. apply X1. congruence.
  - destruct (cl (cn s i)) eqn:C; try (injection E as <- <-; auto; fail); revert E; apply SND; v3; auto; intros _; apply X1; congruence.
  - destruct (cl (cn s i)) eqn:C; injection E as <- <-; auto; (eapply (P i); [|reflexivity]); v3; auto.
    + tauto.
    + destruct X1 as (_ & _ & -> & _); [congruence|]. intros [].
    + destruct X1 as (_ & _ & -> & _); [congruence|]. intros [].
    + intros _. apply X1. congruence.
    + intro K0. exfalso. apply K0. apply X1. congruence.
  - unfold step_w in E. destruct (cw (cn s i)) eqn:C; try (injection E as <- <-; auto; fail).
    1-3: injection E as <- <-; (eapply (P i); [|reflexivity]); v3; rewrite ?C in *; 
      [intro Y; destruct (X1 Y) as (_ & Z1 & _); discriminate Z1
      |intro Y; destruct (X2 Y); discriminate
      |auto
      |intro Y; specialize (X4 Y); destruct (cs (cn s i)); auto; destruct X4 as [X4 X6]; split; [assumption|]; intro Z0; destruct (X6 Z0); discriminate
      |destruct (ck (cn s i)); auto; destruct X5 as [[X5|X5] _]; discriminate].
    + revert E. apply TLL. v3; rewrite ?C in *; auto.
      * intro Y. destruct (X1 Y) as (_ & Z1 & _); discriminate Z1.
      * rewrite in_app_iff. intros [Y|[Y|[]]]; [auto|discriminate].
      * intro Y; specialize (X4 Y); destruct (cs (cn s i)); auto; destruct X4 as [X4 X6]; split; auto.
      * destruct (ck (cn s i)); auto; destruct X5 as [[X5|X5] _]; discriminate.
    + revert E. apply SND. v3; rewrite ?C in *; auto.
      * intro Y. destruct (X1 Y) as (_ & Z1 & _); discriminate Z1.
      * intro Y; specialize (X4 Y); destruct (cs (cn s i)); auto; destruct X4 as [X4 X6]; split; auto.
      * destruct (ck (cn s i)); auto; destruct X5 as [[X5|X5] X6]; auto.
  - destruct (cw (cn s i)) eqn:C; injection E as <- <-; auto; (eapply (P i); [|reflexivity]); v3; rewrite ?C in *;
      [intro Y; destruct (X1 Y) as (_ & Z1 & _); discriminate Z1
      |intro Y; destruct (X2 Y); discriminate
      |auto
      |intro Y; specialize (X4 Y); destruct (cs (cn s i)); auto; destruct X4 as [X4 X6]; split; [assumption|]; intro Z0; destruct (X6 Z0); discriminate
      |destruct (ck (cn s i)); auto; destruct X5 as [[X5|X5] _]; discriminate
      |intro Y; destruct (X1 Y) as (_ & Z1 & _); discriminate Z1
      |intro Y; destruct (X2 Y); discriminate
      |auto
      |intro Y; specialize (X4 Y); destruct (cs (cn s i)); auto; destruct X4 as [X4 X6]; split; [assumption|]; intro Z0; destruct (X6 Z0); discriminate
      |destruct (ck (cn s i)); auto; destruct X5 as [[X5|X5] _]; discriminate].
  - destruct (cw (cn s i)) eqn:C; injection E as <- <-; auto; (eapply (P i); [|reflexivity]); v3; rewrite ?C in *;
      [intro Y; destruct (X1 Y) as (_ & Z1 & _); discriminate Z1
      |intro Y; destruct (X2 Y); discriminate
      |auto
      |intro Y; specialize (X4 Y); destruct (cs (cn s i)); auto; destruct X4 as [X4 X6]; split; [assumption|]; intro Z0; destruct (X6 Z0); discriminate
      |destruct (ck (cn s i)); auto; destruct X5 as [[X5|X5] _]; discriminate
      |intro Y; destruct (X1 Y) as (_ & Z1 & _); discriminate Z1
      |intro Y; destruct (X2 Y); discriminate
      |auto
      |intro Y; specialize (X4 Y); destruct (cs (cn s i)); auto; destruct X4 as [X4 X6]; split; [assumption|]; intro Z0; destruct (X6 Z0); discriminate
      |destruct (ck (cn s i)); auto; destruct X5 as [[X5|X5] _]; discriminate].
  - destruct (sp s); try (injection E as <- <-; auto; fail). destruct (cw (cn s i)) eqn:C; try (injection E as <- <-; auto; fail).
    destruct (_ =? _)%nat; [|injection E as <- <-; auto].
    assert (Y : cn s' = upd (cn s) i (c_cw (cn s i) WNote)).
    { destruct (k + 1 =? 0); [apply cn_after in E|injection E as <- <-]; destruct d; try rewrite E; reflexivity. }
    eapply (P i); [|exact Y]. clear Y. v3; rewrite ?C in *.
    + intro Y; destruct (X1 Y) as (_ & Z1 & _); discriminate Z1.
    + intro Y; destruct (X2 Y); discriminate.
    + auto.
    + intro Y; specialize (X4 Y); destruct (cs (cn s i)); auto; destruct X4 as [X4 X6]; split; [assumption|]; intro Z0; destruct (X6 Z0); discriminate.
    + destruct (ck (cn s i)); auto; destruct X5 as [[X5|X5] _]; discriminate.
  - destruct (cr (cn s i)) eqn:C; injection E as <- <-; auto; (eapply (P i); [|reflexivity]); v3; rewrite ?C in *; auto.
    + intro Y; destruct (X1 Y) as (Z1 & _); discriminate Z1.
    + intro Y; specialize (X3 Y); discriminate.
    + intro Y; specialize (X4 Y); destruct (cs (cn s i)); auto; destruct X4 as [X4 X6]; split; [|assumption]; intro Z0; specialize (X4 Z0); discriminate.
    + destruct (ck (cn s i)); auto; destruct X5 as [_ X5]; discriminate.
  - destruct (cr (cn s i)) eqn:C; try (injection E as <- <-; auto; fail). revert E. apply TLL. v3; rewrite ?C in *; auto.
    + intro Y; destruct (X1 Y) as (Z1 & _); discriminate Z1.
    + rewrite in_app_iff. intros [Y|[Y|[]]]; [auto|discriminate].
    + intro Y; specialize (X4 Y); destruct (cs (cn s i)); auto; destruct X4 as [X4 X6]; split; auto.
    + destruct (ck (cn s i)); auto; destruct X5 as [X6 X5]; discriminate.
  - unfold step_k in E. destruct (ck (cn s i)) eqn:C; try (injection E as <- <-; auto; fail).
    + destruct (notes (cn s i)) as [|n ns] eqn:Nt; [injection E as <- <-; auto|].
      destruct (match cs (cn s i) with CsClosing r w => (r, w) | _ => (false, false) end) as [r w] eqn:Ec.
      destruct (match n with NWrite => (r, true) | NRead => (true, w) end) as [r1 w1] eqn:Er.
      injection E as <- <-. eapply (P i); [|reflexivity]. v3; rewrite ?C, ?Nt in *.
      * intro Y. destruct (X1 Y) as (_ & _ & Z1 & _). discriminate Z1.
      * intro Y. apply X2. now right.
      * intro Y. apply X3. now right.
      * intros _. assert (K0 : KRun <> KOff) by discriminate. specialize (X4 K0).
        assert (Z1 : (r = true -> cr (cn s i) = REnd) /\ (w = true -> cw (cn s i) = WMsg \/ cw (cn s i) = WEnd)).
        { destruct (cs (cn s i)); injection Ec as <- <-; auto; split; discriminate. }
        destruct n; injection Er as <- <-; (split; [|]); try tauto; intros _; [apply X2|apply X3]; now left.
      * assert (K0 : KRun <> KOff) by discriminate. specialize (X4 K0).
        assert (Z1 : (r = true -> cr (cn s i) = REnd) /\ (w = true -> cw (cn s i) = WMsg \/ cw (cn s i) = WEnd)).
        { destruct (cs (cn s i)); injection Ec as <- <-; auto; split; discriminate. }
        destruct (r1 && w1) eqn:Rw; [|exact Logic.I]. apply andb_prop in Rw as [-> ->].
        destruct n; injection Er as Er; split; try tauto; [apply X2|apply X3]; now left.
    + revert E. apply SND. v3; rewrite ?C in *; auto.
      * intro Y. destruct (X1 Y) as (_ & _ & _ & Z1). discriminate Z1.
      * intros _. apply X4. discriminate.
    + injection E as <- <-. eapply (P i); [|reflexivity]. v3; rewrite ?C in *; auto.
      * intro Y. destruct (X1 Y) as (_ & _ & _ & Z1). discriminate Z1.
      * intros _. apply X4. discriminate.
Qed.
Lemma start_valid3 n es t s : start n es = (t, s) -> forall i, valid3 (cn s i).
Proof.
  apply (run_ind (fun _ s => forall i, valid3 (cn s i))).
  - intros o s0 E. eapply cn_open3; [exact E|]. intro i. split; fields; cbn [In]; tauto.
  - intros t0 s0 e o s1 V St. eapply valid3_step; eauto.
Qed.

(** * flushInFly *)
Definition fl (i : nat) (o : list obs) (s s' : st) : Prop :=
  (filter (is_flush i) o = [] /\ (ck (cn s' i) = KEnd <-> ck (cn s i) = KEnd)) \/
  (filter (is_flush i) o = [OFlush i] /\ ck (cn s i) = KFlush /\ ck (cn s' i) = KEnd).
Lemma fl_after i s o s' : after s = (o, s') -> filter (is_flush i) o = [] /\ cn s' = cn s.
Proof. unfold after, ok. destruct (_ && _); intro E; injection E as <- <-; auto. Qed.
Lemma fl_open i : forall k s o s', open k s = (o, s') -> (forall j, (curId s < j)%nat -> cn s j = new_conn) ->
  filter (is_flush i) o = [] /\ cn s' i = cn s i.
Proof.
  induction k as [|k IH]; intros s o s' E V; cbn [open] in E; [injection E as <- <-; auto|].
  destruct (open k _) as [o1 s1] eqn:O. injection E as <- <-. apply IH in O as [O1 O2]; fields.
  - cbn [filter is_flush]. split; [assumption|]. rewrite O2. spl i (S (curId s)); [|reflexivity]. symmetry. apply V. lia.
  - intros j J. spl j (S (curId s)); [reflexivity|]. apply V. lia.
Qed.
Lemma fl_step i s e o s' : step s e = (o, s') -> (forall j, valid3 (cn s j)) -> (forall j, (curId s < j)%nat -> cn s j = new_conn) -> fl i o s s'.
Proof.
  intros E V N.
  assert (P : forall j c s1, ck c = ck (cn s j) -> cn s1 = upd (cn s) j c -> fl i [] s s1).
  { intros j c s1 X Y. left. split; [reflexivity|]. rewrite Y. spl i j; [rewrite X|]; tauto. }
  assert (Q : cn s' = cn s -> filter (is_flush i) o = [] -> fl i o s s') by (intros X Y; left; rewrite X; tauto).
  assert (OK : (o, s') = ok s -> fl i o s s') by (intro X; injection X as -> ->; apply Q; reflexivity).
  assert (SND : forall j k c, ((ck c = KEnd) <-> (ck (cn s j) = KEnd)) -> send s j k c = (o, s') -> fl i o s s').
  { intros j k c X. unfold send. destruct (_ <? _)%nat; intro Y; [|auto]. injection Y as <- <-. left. split; [reflexivity|]. fields. spl i j; tauto. }
  assert (TLL : forall j k c, ck c = ck (cn s j) -> tell s j k c = (o, s') -> fl i o s s').
  { intros j k c X. unfold tell. destruct (_ <? _)%nat; intro Y; [|auto]. injection Y as <- <-. eapply (P j); [|reflexivity]. exact X. }
  destruct e as [| | | | | |j| |j|j|j|j|j|j|j|j|j|j|j]; cbn [step] in E; auto.
  - injection E as <- <-. auto.
  - injection E as <- <-. auto.
  - unfold fix_connections in E. destruct (sp s); auto.
    destruct (_ <? 0); [injection E as <- <-; auto|]. destruct (open _ s) as [o1 s1] eqn:O. destruct (after s1) as [o2 s2] eqn:A.
    injection E as <- <-. apply (fl_after i) in A as [A1 A2]. apply (fl_open i) in O as [O1 O2]; [|assumption].
    left. rewrite filter_app, O1, A1, A2, O2. split; [reflexivity|tauto].
  - destruct (ch s) as [|[j k] c0]; auto. unfold server_turn in E. destruct (sp s); auto.
    destruct (on_conn_error _ _) as [o1 s1] eqn:O. destruct (after s1) as [o2 s2] eqn:A. injection E as <- <-. apply (fl_after i) in A as [A1 A2].
    apply Q.
    + rewrite A2. unfold on_conn_error in O. fields. destruct k; try destruct (mem _ _); injection O as <- <-; reflexivity.
    + rewrite filter_app, A1, app_nil_r. unfold on_conn_error in O. fields. destruct k; try destruct (mem _ _); injection O as <- <-; try reflexivity;
      destruct (_ =? 0); reflexivity.
  - destruct (acts s); auto. unfold server_turn, ok in E. destruct (sp s); auto.
    destruct (after _) as [o2 s2] eqn:A. injection E as <- <-. apply (fl_after i) in A as [A1 A2]. auto.
  - destruct (xreq s); auto. unfold server_turn, ok in E. destruct (sp s); auto.
    destruct (after _) as [o2 s2] eqn:A. injection E as <- <-. apply (fl_after i) in A as [A1 A2]. auto.
  - destruct (sp s); auto. destruct (mem j todo); auto.
    destruct (cs (cn s j)) eqn:C; injection E as <- <-; auto; left; (split; [reflexivity|]); fields; spl i j; fields; tauto.
  - destruct (sp s); auto. destruct todo; auto. apply (fl_after i) in E as [A1 A2]. auto.
  - destruct (cl (cn s j)) eqn:C; auto. destruct (mem j (conns s)); auto. injection E as <- <-.
    (eapply (P j); [|reflexivity]; reflexivity).
  - destruct (cl (cn s j)) eqn:C; auto. injection E as <- <-. (eapply (P j); [|reflexivity]; reflexivity).
  - destruct (cl (cn s j)) eqn:C; auto; revert E; apply SND; tauto.
  - destruct (cl (cn s j)) eqn:C; auto; injection E as <- <-.
    + left. split; [reflexivity|]. fields. spl i j; [|tauto]. fields. destruct (v_off _ (V j)) as (_ & _ & _ & ->); [congruence|]. split; discriminate.
    + eapply (P j); [|reflexivity]. reflexivity.
  - unfold step_w in E. destruct (cw (cn s j)) eqn:C; auto; try (injection E as <- <-; (eapply (P j); [|reflexivity]; reflexivity)).
    + revert E. apply TLL. reflexivity.
    + revert E. apply SND. reflexivity.
  - destruct (cw (cn s j)) eqn:C; auto; injection E as <- <-; (eapply (P j); [|reflexivity]; reflexivity).
  - destruct (cw (cn s j)) eqn:C; auto; injection E as <- <-; (eapply (P j); [|reflexivity]; reflexivity).
  - destruct (sp s); auto. destruct (cw (cn s j)) eqn:C; auto. destruct (_ =? _)%nat; auto.
    assert (Y : cn s' = upd (cn s) j (c_cw (cn s j) WNote) /\ filter (is_flush i) o = []).
    { destruct (k + 1 =? 0); [apply (fl_after i) in E as [A1 A2]; rewrite A2|injection E as <- <-]; destruct d; auto. }
    destruct Y as [Y1 Y2]. left. split; [assumption|]. rewrite Y1. spl i j; fields; tauto.
  - destruct (cr (cn s j)) eqn:C; auto; injection E as <- <-; (eapply (P j); [|reflexivity]; reflexivity).
  - destruct (cr (cn s j)) eqn:C; auto. revert E. apply TLL. reflexivity.
  - unfold step_k in E. destruct (ck (cn s j)) eqn:C; auto.
    + destruct (notes (cn s j)) as [|n ns] eqn:Nt; auto.
      destruct (match cs (cn s j) with CsClosing r w => (r, w) | _ => (false, false) end) as [r w] eqn:Ec.
      destruct (match n with NWrite => (r, true) | NRead => (true, w) end) as [r1 w1] eqn:Er.
      injection E as <- <-. left. split; [reflexivity|]. fields. spl i j; fields; [|tauto]. rewrite C. destruct (_ && _); split; discriminate.
    + revert E. apply SND. fields. rewrite C. split; discriminate.
    + injection E as <- <-. unfold fl. fields. cbn [filter is_flush]. destruct (Nat.eqb_spec i j) as [->|Ne].
      * right. rewrite upd_same. auto.
      * left. rewrite upd_other by assumption. tauto.
Qed.
