(** Invariants of the listening server. *)
From Coq Require Import List Bool Arith Lia.
Import ListNotations.
From Verif Require Import ListenModel.

Lemma upd_same {A} (f : nat -> A) k v : upd f k v k = v.
Proof. unfold upd. now rewrite Nat.eqb_refl. Qed.
Lemma upd_other {A} (f : nat -> A) k v i : i <> k -> upd f k v i = f i.
Proof. intro. unfold upd. destruct (Nat.eqb_spec i k); congruence. Qed.
Lemma run_app es : forall s es', run s (es ++ es') = let '(o, s1) := run s es in let '(o', s2) := run s1 es' in (o ++ o', s2).
Proof.
  induction es as [|e es IH]; intros s es'; cbn [app run].
  - now destruct (run s es').
  - destruct (step s e) as [o1 s1]. rewrite IH. destruct (run s1 es) as [o2 s2]. destruct (run s2 es') as [o3 s3]. now rewrite app_assoc.
Qed.
(** invariants of traces and states *)
Lemma run_inv (P : list obs -> st -> Prop) : (forall t s e o s', P t s -> step s e = (o, s') -> P (t ++ o) s') ->
  forall es t s o s', P t s -> run s es = (o, s') -> P (t ++ o) s'.
Proof.
  intro H. induction es as [|e es IH]; intros t s o s' HP; cbn [run].
  - intro E. injection E as <- <-. now rewrite app_nil_r.
  - destruct (step s e) as [o1 s1] eqn:E1. destruct (run s1 es) as [o2 s2] eqn:E2. intro E. injection E as <- <-.
    rewrite app_assoc. eapply IH; [|exact E2]. eapply H; eauto.
Qed.

Record Inv (t : list obs) (s : st) : Prop := mkInv {
  iSrv : forall i, In (OServe i) t <-> 1 <= i <= curId s;
  iNone : forall i, cp s i = CNone <-> ~ (1 <= i <= curId s);
  iIn : forall i, In i (conns s) <-> (cp s i = CServe \/ cp s i = CFirst \/ (kp s = KConn i /\ (cp s i = CMid \/ cp s i = CSecond)));
  iWr : forall i, In (OWritten i) t <-> (cp s i <> CNone /\ cp s i <> CServe);
  iGone : forall i, In (OGone i) t <-> cp s i = CEnd;
  iEnd : In OEnd t <-> kp s = KEnd;
  iEndE : kp s = KEnd -> conns s = [] /\ closing s = true;
  iClo : (exists k, sp s k <> SNew) -> closing s = true;
  iStopq : stopq s = true \/ kp s = KStop -> closing s = true;
  iStp : forall k, In (OStopped k) t <-> sp s k = SRet;
  iTell : forall i, In (OTell i) t -> closing s = true /\ 1 <= i <= curId s /\ (kp s = KEnd \/ conns s <> []);
  iLock : forall k, lock s = Some k <-> sp s k = SSend;
  iKC : forall i, kp s = KConn i -> cp s i = CMid \/ cp s i = CSecond \/ cp s i = CEnd }.

Lemma init_inv : Inv [] s_init.
Proof.
  constructor; cbn; try (intros; split; intros; try contradiction; try discriminate; lia); try (intros; contradiction); try (intros; discriminate).
  - intros i. split; [lia|reflexivity].
  - intros i. split; [contradiction|]. intros [H|[H|[H _]]]; discriminate.
  - intros i. split; [contradiction|]. intros [H _]. now destruct H.
  - intros [k H]. now destruct H.
  - intros [H|H]; discriminate.
Qed.
Ltac fin := first [contradiction | discriminate | congruence | lia | tauto | assumption].
Lemma in_snoc {A} (x : A) l y : In x (l ++ [y]) <-> In x l \/ y = x.
Proof. rewrite in_app_iff. cbn. tauto. Qed.
Lemma in_nil_r {A} (x : A) l : In x (l ++ []) <-> In x l.
Proof. now rewrite app_nil_r. Qed.
Lemma in_del i j l : In i (del j l) <-> In i l /\ i <> j.
Proof. unfold del. split; [apply in_remove|]. intros [A B]. now apply in_in_remove. Qed.
Lemma is_nil_spec l : is_nil l = true <-> l = [].
Proof. destruct l; cbn; split; congruence. Qed.


(** the fields of an invariant whose observations do not change *)
Ltac same R := rewrite in_snoc, R; split; [intros [?X|?X]; [exact X|discriminate X]|tauto].
Ltac idle I := match goal with E : _ = (_, _) |- _ => injection E as <- <-; rewrite app_nil_r; exact I end.
Lemma step_inv t s e o s' : Inv t s -> step s e = (o, s') -> Inv (t ++ o) s'.
Proof.
  intros I E. destruct e as [b| |k| |i| |i|i|i|i]; cbn [step] in E.
  - (* Accept *)
    unfold step_accept in E. destruct (lp s); try idle I. injection E as <- <-; rewrite app_nil_r. destruct I; constructor; assumption.
  - (* Listen *)
    unfold step_listen in E. destruct (free s); [|idle I]. destruct (lp s) eqn:L; try idle I.
    + injection E as <- <-. rewrite app_nil_r. destruct I; constructor; assumption.
    + destruct (closing s) eqn:C.
      * injection E as <- <-. destruct I. constructor; cbn [curId cp conns kp closing stopq sp lock w_lp]; try assumption; try (intros; exact C).
        -- intro j. same iSrv0. -- intro j. same iWr0. -- intro j. same iGone0. -- same iEnd0. -- intro j. same iStp0.
        -- intros j H. apply in_snoc in H. destruct H as [H|H]; [now apply iTell0|discriminate H].
      * injection E as <- <-. set (n := S (curId s)).
        assert (CN : cp s n = CNone) by (apply (iNone _ _ I); unfold n; lia).
        constructor; cbn [curId cp conns kp closing stopq sp lock].
        -- intro i. rewrite in_snoc, (iSrv _ _ I i). unfold n. split; [intros [H|H]; [lia|injection H as <-; lia]|].
           intro H. destruct (Nat.eq_dec i (S (curId s))) as [->|D]; [now right|left; lia].
        -- intro i. destruct (Nat.eq_dec i n) as [->|D].
           ++ rewrite upd_same. split; [discriminate|]. unfold n. lia.
           ++ rewrite upd_other by exact D. rewrite (iNone _ _ I i). unfold n in *. lia.
        -- intro i. destruct (Nat.eq_dec i n) as [->|D].
           ++ rewrite upd_same. split; [now left|now left].
           ++ rewrite upd_other by exact D. cbn [In]. rewrite (iIn _ _ I i). split; [intros [H|H]; [congruence|exact H]|now right].
        -- intro i. rewrite in_snoc, (iWr _ _ I i). destruct (Nat.eq_dec i n) as [->|D].
           ++ rewrite upd_same, CN. split; [intros [[H _]|H]; [congruence|discriminate]|]. intros [_ H]. congruence.
           ++ rewrite upd_other by exact D. split; [intros [H|H]; [exact H|discriminate]|tauto].
        -- intro i. rewrite in_snoc, (iGone _ _ I i). destruct (Nat.eq_dec i n) as [->|D].
           ++ rewrite upd_same, CN. split; [intros [H|H]; discriminate|discriminate].
           ++ rewrite upd_other by exact D. split; [intros [H|H]; [exact H|discriminate]|tauto].
        -- same (iEnd _ _ I).
        -- intro H. destruct (iEndE _ _ I H). congruence.
        -- intro H. rewrite (iClo _ _ I H) in C. discriminate.
        -- intro H. rewrite (iStopq _ _ I H) in C. discriminate.
        -- intro k. same (iStp _ _ I k).
        -- intro i. rewrite in_snoc. intros [H|H]; [|discriminate]. destruct (iTell _ _ I i H). congruence.
        -- exact (iLock _ _ I).
        -- intros i H. pose proof (iKC _ _ I i H) as X. destruct (Nat.eq_dec i n) as [->|D]; [rewrite CN in X; destruct X as [X|[X|X]]; discriminate|]. now rewrite upd_other by exact D.
  - (* Stop *)
    unfold step_stop in E. destruct (sp s k) eqn:SK; [| | |idle I].
    + destruct (free s) eqn:F; [|idle I]. injection E as <- <-; rewrite app_nil_r. unfold free in F. destruct (lock s) eqn:LK; [discriminate|].
      destruct I. constructor; cbn [curId cp conns kp closing stopq sp lock w_lock w_closing w_sp]; try assumption; try reflexivity.
      * intro H. destruct (iEndE0 H). split; [assumption|reflexivity].
      * intro j. destruct (Nat.eq_dec j k) as [->|D]; [rewrite upd_same|rewrite upd_other by exact D; apply iStp0].
        rewrite iStp0, SK. split; discriminate.
      * intros i H. destruct (iTell0 i H) as (_ & A & B). split; [reflexivity|split; assumption].
      * intro j. destruct (Nat.eq_dec j k) as [->|D]; [rewrite upd_same; tauto|]. rewrite upd_other by exact D. rewrite <- iLock0. rewrite LK. split; congruence.
    + destruct (stopq s) eqn:Q; [idle I|]. injection E as <- <-; rewrite app_nil_r.
      assert (C : closing s = true) by (apply (iClo _ _ I); exists k; congruence).
      assert (LK : lock s = Some k) by now apply (iLock _ _ I).
      destruct I. constructor; cbn [curId cp conns kp closing stopq sp lock w_lock w_stopq w_sp]; try assumption; try (intros; exact C).
      * intro j. destruct (Nat.eq_dec j k) as [->|D]; [rewrite upd_same|rewrite upd_other by exact D; apply iStp0].
        rewrite iStp0, SK. split; discriminate.
      * intro j. destruct (Nat.eq_dec j k) as [->|D]; [rewrite upd_same; split; discriminate|]. rewrite upd_other by exact D. rewrite <- iLock0, LK. split; congruence.
    + injection E as <- <-. assert (C : closing s = true) by (apply (iClo _ _ I); exists k; congruence).
      destruct I. constructor; cbn [curId cp conns kp closing stopq sp lock w_lclosed w_sp]; try assumption; try (intros; exact C).
      * intro j. same iSrv0. * intro j. same iWr0. * intro j. same iGone0. * same iEnd0.
      * intro j. rewrite in_snoc, iStp0. destruct (Nat.eq_dec j k) as [->|D]; [rewrite upd_same; tauto|]. rewrite upd_other by exact D.
        split; [intros [H|H]; [exact H|congruence]|tauto].
      * intro i. rewrite in_snoc. intros [H|H]; [now apply iTell0|discriminate].
      * intro j. destruct (Nat.eq_dec j k) as [->|D]; [rewrite upd_same; rewrite iLock0, SK; split; discriminate|]. rewrite upd_other by exact D. apply iLock0.
  - (* TakeStop *)
    destruct (kp s) eqn:K; try idle I. destruct (stopq s) eqn:Q; [|idle I]. injection E as <- <-; rewrite app_nil_r.
    assert (C : closing s = true) by (apply (iStopq _ _ I); now left).
    destruct I. constructor; cbn [curId cp conns kp closing stopq sp lock w_kp w_stopq]; try assumption; try (intros; exact C).
    + intro i. rewrite iIn0, K. split; intros [H|[H|[H _]]]; try tauto; discriminate.
    + rewrite iEnd0, K. split; discriminate.
    + discriminate.
    + intros i H. destruct (iTell0 i H) as (A & B & [D|D]); [congruence|tauto].
    + discriminate.
  - (* TakeConn *)
    destruct (kp s) eqn:K; try idle I. destruct (cp s i) eqn:CI; try idle I; injection E as <- <-.
    + rewrite app_nil_r. destruct I. constructor; cbn [curId cp conns kp closing stopq sp lock w_kp w_cp]; try assumption.
      * intro j. destruct (Nat.eq_dec j i) as [->|D]; [rewrite upd_same, <- iNone0, CI; split; discriminate|]. rewrite upd_other by exact D. apply iNone0.
      * intro j. rewrite iIn0, K. destruct (Nat.eq_dec j i) as [->|D]; [rewrite upd_same, CI; tauto|]. rewrite upd_other by exact D.
        split; intros [H|[H|[H _]]]; try tauto; try discriminate. injection H as H. congruence.
      * intro j. rewrite iWr0. destruct (Nat.eq_dec j i) as [->|D]; [rewrite upd_same, CI; split; intros _; split; discriminate|]. now rewrite upd_other by exact D.
      * intro j. rewrite iGone0. destruct (Nat.eq_dec j i) as [->|D]; [rewrite upd_same, CI; split; discriminate|]. now rewrite upd_other by exact D.
      * rewrite iEnd0, K. split; discriminate.
      * discriminate.
      * intros [H|H]; [apply iStopq0; now left|discriminate].
      * intros j H. destruct (iTell0 j H) as (A & B & [D|D]); [congruence|tauto].
      * intros j H. injection H as <-. rewrite upd_same. now left.
    + destruct I. constructor; cbn [curId cp conns kp closing stopq sp lock w_kp w_cp]; try assumption.
      * intro j. same iSrv0.
      * intro j. destruct (Nat.eq_dec j i) as [->|D]; [rewrite upd_same, <- iNone0, CI; split; discriminate|]. rewrite upd_other by exact D. apply iNone0.
      * intro j. rewrite iIn0, K. destruct (Nat.eq_dec j i) as [->|D]; [rewrite upd_same, CI; split; intros [H|[H|[H [H'|H']]]]; discriminate|]. rewrite upd_other by exact D.
        split; intros [H|[H|[H _]]]; try tauto; try discriminate. injection H as H. congruence.
      * intro j. rewrite in_snoc, iWr0. destruct (Nat.eq_dec j i) as [->|D]; [rewrite upd_same, CI; split; [intros _; split; discriminate|intros _; left; split; discriminate]|].
        rewrite upd_other by exact D. split; [intros [H|H]; [exact H|discriminate]|tauto].
      * intro j. rewrite in_snoc, iGone0. destruct (Nat.eq_dec j i) as [->|D]; [rewrite upd_same; tauto|].
        rewrite upd_other by exact D. split; [intros [H|H]; [exact H|congruence]|tauto].
      * rewrite in_snoc, iEnd0, K. split; [intros [H|H]; discriminate|discriminate].
      * discriminate.
      * intros [H|H]; [apply iStopq0; now left|discriminate].
      * intro k. same iStp0.
      * intro j. rewrite in_snoc. intros [H|H]; [|discriminate]. destruct (iTell0 j H) as (A & B & [D|D]); [congruence|tauto].
      * intros j H. injection H as <-. rewrite upd_same. tauto.
  - (* Ctl *)
    unfold step_ctl in E. destruct (free s) eqn:F; [|idle I]. destruct (kp s) as [|i| |] eqn:K; try idle I.
    + pose proof (iKC _ _ I i K) as KC.
      assert (IN : forall j, In j (del i (conns s)) <-> cp s j = CServe \/ cp s j = CFirst).
      { intro j. rewrite in_del, (iIn _ _ I j), K. split.
        - intros [[H|[H|[H _]]] D]; try tauto. congruence.
        - intro H. split; [tauto|]. intros ->. destruct H as [H|H]; rewrite H in KC; destruct KC as [X|[X|X]]; discriminate. }
      cbn [closing conns w_conns] in E. destruct (closing s && is_nil (del i (conns s))) eqn:B; injection E as <- <-.
      * apply andb_prop in B. destruct B as [C N]. apply is_nil_spec in N.
        destruct I. constructor; cbn [curId cp conns kp closing stopq sp lock w_kp w_conns]; try assumption; try (intros; exact C).
        -- intro j. same iSrv0.
        -- intro j. rewrite IN. split; [tauto|]. intros [H|[H|[H _]]]; try tauto. discriminate.
        -- intro j. same iWr0. -- intro j. same iGone0.
        -- rewrite in_snoc. tauto.
        -- intros _. split; assumption.
        -- intro k. same iStp0.
        -- intro j. rewrite in_snoc. intros [H|H]; [|discriminate]. destruct (iTell0 j H) as (A & B & _). tauto.
        -- discriminate.
      * rewrite app_nil_r. destruct I. constructor; cbn [curId cp conns kp closing stopq sp lock w_kp w_conns]; try assumption.
        -- intro j. rewrite IN. split; [tauto|]. intros [H|[H|[H _]]]; try tauto. discriminate.
        -- rewrite iEnd0, K. split; discriminate.
        -- discriminate.
        -- intros [H|H]; [apply iStopq0; now left|discriminate].
        -- intros j H. destruct (iTell0 j H) as (A & Q & _). split; [exact A|split; [exact Q|]]. right. intro N. rewrite A in B.
           apply is_nil_spec in N. rewrite N in B. discriminate B.
        -- discriminate.
    + assert (C : closing s = true) by (apply (iStopq _ _ I); now right).
      assert (IN : forall j, In j (conns s) <-> cp s j = CServe \/ cp s j = CFirst). { intro j. rewrite (iIn _ _ I j), K. split; [intros [H|[H|[H _]]]; try tauto; discriminate|tauto]. }
      destruct (is_nil (conns s)) eqn:B; injection E as <- <-.
      * apply is_nil_spec in B. rewrite B. cbn [map app].
        destruct I. constructor; cbn [curId cp conns kp closing stopq sp lock w_kp]; try assumption; try (intros; exact C).
        -- intro j. same iSrv0.
        -- intro j. rewrite IN. split; [tauto|]. intros [H|[H|[H _]]]; try tauto. discriminate.
        -- intro j. same iWr0. -- intro j. same iGone0.
        -- rewrite in_snoc. tauto.
        -- intros _. split; assumption.
        -- intro k. same iStp0.
        -- intro j. rewrite in_snoc. intros [H|H]; [|discriminate]. destruct (iTell0 j H) as (A & Q & _). tauto.
        -- discriminate.
      * assert (NN : conns s <> []) by (intro X; apply is_nil_spec in X; congruence).
        assert (OT : forall x l, In x (map OTell l) -> exists j, x = OTell j /\ In j l). { intros x l H. apply in_map_iff in H. destruct H as (j & <- & H). now exists j. }
        assert (MT : forall x, (forall j, x <> OTell j) -> (In x (t ++ map OTell (conns s)) <-> In x t)).
        { intros x D. rewrite in_app_iff. split; [intros [H|H]; [exact H|]|tauto]. destruct (OT _ _ H) as (j & X & _). now destruct (D j). }
        destruct I. constructor; cbn [curId cp conns kp closing stopq sp lock w_kp]; try assumption; try (intros; exact C).
        -- intro j. rewrite MT by discriminate. apply iSrv0.
        -- intro j. rewrite IN. split; [tauto|]. intros [H|[H|[H _]]]; try tauto. discriminate.
        -- intro j. rewrite MT by discriminate. apply iWr0.
        -- intro j. rewrite MT by discriminate. apply iGone0.
        -- rewrite MT by discriminate. rewrite iEnd0, K. split; discriminate.
        -- discriminate.
        -- intro j. rewrite MT by discriminate. apply iStp0.
        -- intros j H. split; [exact C|split; [|now right]]. apply in_app_or in H. destruct H as [H|H]; [now apply iTell0|].
           destruct (OT _ _ H) as (j' & X & Y). injection X as <-. destruct (Nat.eq_dec (curId s) 0) as [Z|Z].
           ++ exfalso. assert (W : cp s j = CNone) by (apply iNone0; lia). apply IN in Y. destruct Y as [Y|Y]; congruence.
           ++ destruct (le_lt_dec 1 j) as [A|A]; [destruct (le_lt_dec j (curId s)) as [A'|A']; [lia|]|]; exfalso; assert (W : cp s j = CNone) by (apply iNone0; lia);
                apply IN in Y; destruct Y as [Y|Y]; congruence.
        -- discriminate.
  - (* CRead *)
    destruct (rd s i); [|idle I]. injection E as <- <-. destruct I. constructor; try assumption.
    + intro j. same iSrv0. + intro j. same iWr0. + intro j. same iGone0. + same iEnd0. + intro j. same iStp0.
    + intro j. rewrite in_snoc. intros [H|H]; [now apply iTell0|discriminate].
  - (* CEof *)
    injection E as <- <-. rewrite app_nil_r. destruct I. constructor; assumption.
  - (* CWritten *)
    destruct (cp s i) eqn:CI; try idle I. injection E as <- <-.
    destruct I. constructor; cbn [curId cp conns kp closing stopq sp lock w_cp]; try assumption.
    + intro j. same iSrv0.
    + intro j. destruct (Nat.eq_dec j i) as [->|D]; [rewrite upd_same, <- iNone0, CI; split; discriminate|]. rewrite upd_other by exact D. apply iNone0.
    + intro j. rewrite iIn0. destruct (Nat.eq_dec j i) as [->|D]; [rewrite upd_same, CI; tauto|]. rewrite upd_other by exact D. tauto.
    + intro j. rewrite in_snoc, iWr0. destruct (Nat.eq_dec j i) as [->|D]; [rewrite upd_same; split; [intros _; split; discriminate|tauto]|].
      rewrite upd_other by exact D. split; [intros [H|H]; [exact H|congruence]|tauto].
    + intro j. rewrite in_snoc, iGone0. destruct (Nat.eq_dec j i) as [->|D]; [rewrite upd_same, CI; split; [intros [H|H]; discriminate|discriminate]|].
      rewrite upd_other by exact D. split; [intros [H|H]; [exact H|congruence]|tauto].
    + same iEnd0.
    + intro k. same iStp0.
    + intro j. rewrite in_snoc. intros [H|H]; [now apply iTell0|discriminate].
    + intros j H. pose proof (iKC0 j H) as X. destruct (Nat.eq_dec j i) as [->|D]; [rewrite CI in X; destruct X as [X|[X|X]]; discriminate|]. now rewrite upd_other by exact D.
  - (* CGo *)
    destruct (cp s i) eqn:CI; try idle I. destruct (rd s i); [idle I|]. injection E as <- <-. rewrite app_nil_r.
    destruct I. constructor; cbn [curId cp conns kp closing stopq sp lock w_cp]; try assumption.
    + intro j. destruct (Nat.eq_dec j i) as [->|D]; [rewrite upd_same, <- iNone0, CI; split; discriminate|]. rewrite upd_other by exact D. apply iNone0.
    + intro j. rewrite iIn0. destruct (Nat.eq_dec j i) as [->|D]; [rewrite upd_same, CI|rewrite upd_other by exact D; tauto].
      split; intros [H|[H|[H _]]]; try discriminate; right; right; tauto.
    + intro j. rewrite iWr0. destruct (Nat.eq_dec j i) as [->|D]; [rewrite upd_same, CI; split; intros _; split; discriminate|]. now rewrite upd_other by exact D.
    + intro j. rewrite iGone0. destruct (Nat.eq_dec j i) as [->|D]; [rewrite upd_same, CI; split; discriminate|]. now rewrite upd_other by exact D.
    + intros j H. pose proof (iKC0 j H) as X. destruct (Nat.eq_dec j i) as [->|D]; [rewrite upd_same; tauto|]. now rewrite upd_other by exact D.
Qed.
Lemma start_inv es t s : start es = (t, s) -> Inv t s.
Proof. intro E. exact (run_inv Inv step_inv es [] s_init t s init_inv E). Qed.

(** ** Orders *)
(** what a step adds *)
Lemma serve_when_open t s e o s' i : Inv t s -> step s e = (o, s') -> In (OServe i) o -> closing s = false /\ o = [OServe i].
Proof.
  intros I E H. destruct e as [b| |k| |j| |j|j|j|j]; cbn [step] in E; unfold step_accept, step_listen, step_stop, step_ctl in E;
    repeat match goal with E : context [match ?x with _ => _ end] |- _ => destruct x eqn:? end;
    injection E as <- <-; cbn in H; try tauto; try (destruct H as [H|H]; [try discriminate H|tauto]).
  - split; congruence.
  - apply in_app_or in H. destruct H as [H|H]; [|cbn in H; destruct H as [H|H]; [discriminate|tauto]]. apply in_map_iff in H. destruct H as (x & H & _). discriminate.
  - apply in_map_iff in H. destruct H as (x & H & _). discriminate.
Qed.
Lemma end_when_empty t s e o s' : Inv t s -> step s e = (o, s') -> In OEnd o -> o = [OEnd] /\ Inv (t ++ [OEnd]) s' /\ kp s <> KEnd.
Proof.
  intros I E H. pose proof (step_inv t s e o s' I E) as I'. destruct e as [b| |k| |j| |j|j|j|j]; cbn [step] in E; unfold step_accept, step_listen, step_stop, step_ctl in E;
    repeat match goal with E : context [match ?x with _ => _ end] |- _ => destruct x eqn:? end;
    injection E as <- <-; cbn in H; try tauto; try (destruct H as [H|H]; [try discriminate H|tauto]).
  - split; [reflexivity|split; [exact I'|congruence]].
  - assert (N : conns s = []) by now apply is_nil_spec. rewrite N in *. cbn in *. split; [reflexivity|split; [exact I'|congruence]].
  - apply in_map_iff in H. destruct H as (x & H & _). discriminate.
Qed.
Lemma gone_from t s e o s' i : Inv t s -> step s e = (o, s') -> In (OGone i) o -> kp s = KSel.
Proof.
  intros I E H. destruct e as [b| |k| |j| |j|j|j|j]; cbn [step] in E; unfold step_accept, step_listen, step_stop, step_ctl in E;
    repeat match goal with E : context [match ?x with _ => _ end] |- _ => destruct x eqn:? end;
    injection E as <- <-; cbn in H; try tauto; try (destruct H as [H|H]; [try discriminate H|tauto]); try assumption.
  - apply in_app_or in H. destruct H as [H|H]; [|cbn in H; destruct H as [H|H]; [discriminate|tauto]]. apply in_map_iff in H. destruct H as (x & H & _). discriminate.
  - apply in_map_iff in H. destruct H as (x & H & _). discriminate.
Qed.
Lemma closing_stays s e o s' : step s e = (o, s') -> closing s = true -> closing s' = true.
Proof.
  intros E H. destruct e as [b| |k| |j| |j|j|j|j]; cbn [step] in E; unfold step_accept, step_listen, step_stop, step_ctl in E;
    repeat match goal with E : context [match ?x with _ => _ end] |- _ => destruct x eqn:? end;
    injection E as <- <-; cbn; congruence.
Qed.
Lemma kend_stays s e o s' : step s e = (o, s') -> kp s = KEnd -> kp s' = KEnd /\ forall i, cp s' i = CEnd -> cp s i = CEnd.
Proof.
  intros E H. destruct e as [b| |k| |j| |j|j|j|j]; cbn [step] in E; unfold step_accept, step_listen, step_stop, step_ctl in E; rewrite ?H in E;
    repeat match goal with E : context [match ?x with _ => _ end] |- _ => destruct x eqn:? end;
    injection E as <- <-; cbn; (split; [congruence|]); try tauto; intro x; unfold upd; destruct (_ =? _); try tauto; discriminate.
Qed.
(** once closing, nothing more is served *)
Lemma run_no_serve es : forall t s o s', Inv t s -> closing s = true -> run s es = (o, s') -> forall i, ~ In (OServe i) o.
Proof.
  induction es as [|e es IH]; intros t s o s' I C; cbn [run].
  - intro E. injection E as <- <-. intros i [].
  - destruct (step s e) as [o1 s1] eqn:E1. destruct (run s1 es) as [o2 s2] eqn:E2. intro E. injection E as <- <-. intros i H.
    apply in_app_or in H. destruct H as [H|H].
    + destruct (serve_when_open t s e o1 s1 i I E1 H). congruence.
    + exact (IH (t ++ o1) s1 o2 s2 (step_inv _ _ _ _ _ I E1) (closing_stays _ _ _ _ E1 C) E2 i H).
Qed.

(** ** Ending *)
(** What a single call of Stop has done so far *)
Definition stage (t : list obs) (s : st) : Prop :=
  (forall k, k <> 0 -> sp s k = SNew) /\
  match sp s 0 with
  | SNew | SSend => stopq s = false /\ kp s <> KStop /\ (forall i, ~ In (OTell i) t)
  | SClose | SRet => stopq s = true \/ kp s = KStop \/ kp s = KEnd \/
                     (conns s <> [] /\ forall i, In i (conns s) -> In (OTell i) t)
  end.
Lemma stage_step t s e o s' : (forall k, e = Stop k -> k = 0) -> Inv t s -> stage t s -> step s e = (o, s') -> stage (t ++ o) s'.
Proof.
  intros K0 I [A B] E. pose proof (step_inv t s e o s' I E) as I'. destruct e as [b| |k| |i| |i|i|i|i]; cbn [step] in E.
  - unfold step_accept in E. destruct (lp s); injection E as <- <-; rewrite app_nil_r; split; assumption.
  - unfold step_listen in E. destruct (free s); [|injection E as <- <-; rewrite app_nil_r; split; assumption].
    destruct (lp s); try (injection E as <- <-; rewrite app_nil_r; split; assumption). destruct (closing s) eqn:C.
    + injection E as <- <-. split; [exact A|]. cbn [sp stopq kp conns w_lp]. destruct (sp s 0) eqn:S0.
      * destruct B as (B1 & B2 & B3). split; [exact B1|split; [exact B2|]]. intros i H. apply in_snoc in H. destruct H as [H|H]; [now apply (B3 i)|discriminate].
      * destruct B as (B1 & B2 & B3). split; [exact B1|split; [exact B2|]]. intros i H. apply in_snoc in H. destruct H as [H|H]; [now apply (B3 i)|discriminate].
      * destruct B as [B|[B|[B|[B1 B2]]]]; auto. right. right. right. split; [exact B1|]. intros i H. apply in_snoc. left. now apply B2.
      * destruct B as [B|[B|[B|[B1 B2]]]]; auto. right. right. right. split; [exact B1|]. intros i H. apply in_snoc. left. now apply B2.
    + injection E as <- <-. split; [exact A|]. cbn [sp stopq kp conns]. assert (S0 : sp s 0 = SNew).
      { destruct (sp s 0) eqn:S0; [reflexivity| | |]; exfalso; assert (X : closing s = true) by (apply (iClo _ _ I); exists 0; congruence); congruence. }
      rewrite S0 in *. destruct B as (B1 & B2 & B3). split; [exact B1|split; [exact B2|]]. intros i H. apply in_snoc in H. destruct H as [H|H]; [now apply (B3 i)|discriminate].
  - specialize (K0 k eq_refl). subst k. unfold step_stop in E. destruct (sp s 0) eqn:S0.
    + destruct (free s); injection E as <- <-; rewrite app_nil_r; [|split; [exact A|now rewrite S0]].
      split; [intros k D; cbn [sp w_lock w_closing w_sp]; rewrite upd_other by exact D; now apply A|]. cbn [sp w_lock w_closing w_sp stopq kp]. rewrite upd_same. exact B.
    + destruct (stopq s) eqn:Q; injection E as <- <-; rewrite app_nil_r; [split; [exact A|now rewrite S0]|].
      split; [intros k D; cbn [sp w_lock w_stopq w_sp]; rewrite upd_other by exact D; now apply A|]. cbn [sp w_lock w_stopq w_sp stopq kp]. rewrite upd_same. now left.
    + injection E as <- <-. split; [intros k D; cbn [sp w_lclosed w_sp]; rewrite upd_other by exact D; now apply A|]. cbn [sp w_lclosed w_sp stopq kp conns]. rewrite upd_same.
      destruct B as [B|[B|[B|[B1 B2]]]]; auto. right. right. right. split; [exact B1|]. intros i H. apply in_snoc. left. now apply B2.
    + injection E as <- <-; rewrite app_nil_r. split; [exact A|now rewrite S0].
  - destruct (kp s) eqn:K; try (injection E as <- <-; rewrite app_nil_r; split; [exact A|now rewrite ?K]).
    destruct (stopq s) eqn:Q; injection E as <- <-; rewrite app_nil_r; [|split; [exact A|now rewrite K, Q]].
    split; [exact A|]. cbn [sp stopq kp conns w_kp w_stopq]. destruct (sp s 0) eqn:S0; try (destruct B; discriminate); auto.
  - destruct (kp s) eqn:K; try (injection E as <- <-; rewrite app_nil_r; split; [exact A|now rewrite ?K]).
    destruct (cp s i); try (injection E as <- <-; rewrite app_nil_r; split; [exact A|now rewrite ?K]); injection E as <- <-; (split; [exact A|]); cbn [sp stopq kp conns w_kp w_cp];
      destruct (sp s 0) eqn:S0; try (destruct B as (B1 & B2 & B3); (split; [exact B1|split; [discriminate|]]); intros j H; rewrite ?app_nil_r in H; try (apply in_snoc in H; destruct H as [H|H]; [|discriminate]); now apply (B3 j));
      destruct B as [B|[B|[B|[B1 B2]]]]; try discriminate; auto; right; right; right; (split; [exact B1|]); intros j H; apply in_or_app; left; now apply B2.
  - unfold step_ctl in E. destruct (free s); [|injection E as <- <-; rewrite app_nil_r; split; assumption].
    destruct (kp s) as [|i| |] eqn:K; try (injection E as <- <-; rewrite app_nil_r; split; [exact A|now rewrite ?K]).
    + cbn [closing conns w_conns] in E. destruct (closing s && is_nil (del i (conns s))) eqn:N; injection E as <- <-.
      * split; [exact A|]. cbn [sp stopq kp conns w_kp w_conns]. destruct (sp s 0) eqn:S0.
        -- destruct B as (B1 & B2 & B3). split; [exact B1|split; [discriminate|]]. intros j H. apply in_snoc in H. destruct H as [H|H]; [now apply (B3 j)|discriminate].
        -- destruct B as (B1 & B2 & B3). split; [exact B1|split; [discriminate|]]. intros j H. apply in_snoc in H. destruct H as [H|H]; [now apply (B3 j)|discriminate].
        -- auto. -- auto.
      * rewrite app_nil_r. split; [exact A|]. cbn [sp stopq kp conns w_kp w_conns]. destruct (sp s 0) eqn:S0.
        -- destruct B as (B1 & B2 & B3). split; [exact B1|split; [discriminate|exact B3]].
        -- destruct B as (B1 & B2 & B3). split; [exact B1|split; [discriminate|exact B3]].
        -- destruct B as [B|[B|[B|[B1 B2]]]]; try discriminate; auto. right. right. right.
           assert (C : closing s = true) by (apply (iClo _ _ I); exists 0; congruence). rewrite C in N. cbn in N.
           split; [intro Z; apply is_nil_spec in Z; congruence|]. intros j H. apply in_del in H. now apply B2.
        -- destruct B as [B|[B|[B|[B1 B2]]]]; try discriminate; auto. right. right. right.
           assert (C : closing s = true) by (apply (iClo _ _ I); exists 0; congruence). rewrite C in N. cbn in N.
           split; [intro Z; apply is_nil_spec in Z; congruence|]. intros j H. apply in_del in H. now apply B2.
    + destruct (is_nil (conns s)) eqn:N; injection E as <- <-; (split; [exact A|]); cbn [sp stopq kp conns w_kp]; destruct (sp s 0) eqn:S0; try (destruct B as (_ & B & _); now destruct B); auto.
      * right. right. right. split; [intro Z; apply is_nil_spec in Z; congruence|]. intros j H. apply in_or_app. right. now apply in_map.
      * right. right. right. split; [intro Z; apply is_nil_spec in Z; congruence|]. intros j H. apply in_or_app. right. now apply in_map.
  - destruct (rd s i); injection E as <- <-; [|rewrite app_nil_r; split; assumption]. split; [exact A|]. destruct (sp s 0) eqn:S0;
      try (destruct B as (B1 & B2 & B3); split; [exact B1|split; [exact B2|]]; intros j H; apply in_snoc in H; destruct H as [H|H]; [now apply (B3 j)|discriminate]);
      destruct B as [B|[B|[B|[B1 B2]]]]; auto; right; right; right; (split; [exact B1|]); intros j H; apply in_snoc; left; now apply B2.
  - injection E as <- <-. rewrite app_nil_r. split; assumption.
  - destruct (cp s i); injection E as <- <-; try (rewrite app_nil_r; split; assumption). split; [exact A|]. cbn [sp stopq kp conns w_cp]. destruct (sp s 0) eqn:S0;
      try (destruct B as (B1 & B2 & B3); split; [exact B1|split; [exact B2|]]; intros j H; apply in_snoc in H; destruct H as [H|H]; [now apply (B3 j)|discriminate]);
      destruct B as [B|[B|[B|[B1 B2]]]]; auto; right; right; right; (split; [exact B1|]); intros j H; apply in_snoc; left; now apply B2.
  - destruct (cp s i); try (injection E as <- <-; rewrite app_nil_r; split; assumption). destruct (rd s i); injection E as <- <-; rewrite app_nil_r; split; assumption.
Qed.
Lemma run_stage es : forall t s o s', (forall k, In (Stop k) es -> k = 0) -> Inv t s -> stage t s -> run s es = (o, s') -> Inv (t ++ o) s' /\ stage (t ++ o) s'.
Proof.
  induction es as [|e es IH]; intros t s o s' K I G; cbn [run].
  - intro E. injection E as <- <-. rewrite app_nil_r. now split.
  - destruct (step s e) as [o1 s1] eqn:E1. destruct (run s1 es) as [o2 s2] eqn:E2. intro E. injection E as <- <-. rewrite app_assoc.
    apply (IH (t ++ o1) s1 o2 s2); [|exact (step_inv _ _ _ _ _ I E1)| |exact E2].
    + intros k H. apply K. now right.
    + apply (stage_step t s e o1 s1); auto. intros k ->. apply K. now left.
Qed.

(** ** A single Stop gets the server to its end *)
From Verif Require Import ListenSpec.
Lemma begun_stays s e o s' k : step s e = (o, s') -> sp s k <> SNew -> sp s' k <> SNew.
Proof.
  intros E H. destruct e as [b| |k'| |j| |j|j|j|j]; cbn [step] in E; unfold step_accept, step_listen, step_stop, step_ctl in E;
    repeat match goal with E : context [match ?x with _ => _ end] |- _ => destruct x eqn:? end;
    injection E as <- <-; cbn; try assumption; unfold upd; destruct (_ =? _); congruence.
Qed.
Lemma begun t s es : forall o s', (forall k, In (Stop k) es -> k = 0) -> Inv t s -> stage t s -> In (Stop 0) es -> run s es = (o, s') -> sp s' 0 <> SNew.
Proof.
  assert (M : forall es s o s', sp s 0 <> SNew -> run s es = (o, s') -> sp s' 0 <> SNew).
  { clear. induction es as [|e es IH]; intros s o s' H; cbn [run]. { intro E. now injection E as <- <-. }
    destruct (step s e) as [o1 s1] eqn:E1. destruct (run s1 es) as [o2 s2] eqn:E2. intro E. injection E as <- <-. eapply IH; [|exact E2]. eapply begun_stays; eauto. }
  revert t s. induction es as [|e es IH]; intros t s o s' K I G H; [destruct H|]. cbn [run].
  destruct (step s e) as [o1 s1] eqn:E1. destruct (run s1 es) as [o2 s2] eqn:E2. intro E. injection E as <- <-.
  destruct H as [->|H].
  - apply (M es s1 o2 s2); [|exact E2]. cbn [step] in E1. unfold step_stop in E1. destruct (sp s 0) eqn:S0.
    + destruct (free s) eqn:F; [injection E1 as <- <-; cbn; discriminate|]. exfalso. unfold free in F. destruct (lock s) as [k|] eqn:L; [|discriminate].
      apply (iLock _ _ I) in L. destruct (Nat.eq_dec k 0) as [->|D]; [congruence|]. rewrite (proj1 G k D) in L. discriminate.
    + destruct (stopq s); injection E1 as <- <-; [congruence|]. cbn. discriminate.
    + injection E1 as <- <-. cbn. discriminate.
    + injection E1 as <- <-. congruence.
  - apply (IH (t ++ o1) s1 o2 s2); auto.
    + intros k Hk. apply K. now right.
    + eapply step_inv; eauto.
    + apply (stage_step t s e o1 s1); auto. intros k ->. apply K. now left.
Qed.
Lemma quiet_end t s : Inv t s -> stage t s -> sp s 0 <> SNew -> quiet s -> (forall i, In (OTell i) t -> In (OWritten i) t) -> kp s = KEnd /\ sp s 0 = SRet.
Proof.
  intros I [A B] N Q T. assert (S0 : sp s 0 = SRet).
  { destruct (sp s 0) eqn:S0; try congruence.
    - exfalso. assert (W : internal s (Stop 0)) by (cbn; congruence). apply Q in W. cbn [step] in W. unfold step_stop in W. rewrite S0 in W. destruct B as (B & _). rewrite B in W.
      injection W as W. apply (f_equal (fun x => sp x 0)) in W. cbn in W. rewrite S0 in W. unfold upd in W. discriminate.
    - exfalso. assert (W : internal s (Stop 0)) by (cbn; congruence). apply Q in W. cbn [step] in W. unfold step_stop in W. rewrite S0 in W. discriminate. }
  split; [|exact S0]. rewrite S0 in B.
  assert (F : free s = true). { unfold free. destruct (lock s) as [k|] eqn:L; [|reflexivity]. apply (iLock _ _ I) in L. destruct (Nat.eq_dec k 0) as [->|D]; [congruence|]. rewrite (A k D) in L. discriminate. }
  destruct (kp s) as [|i| |] eqn:K; [| | |reflexivity]; exfalso.
  - (* the loop waits *)
    destruct B as [B|[B|[B|[B1 B2]]]]; try discriminate.
    + pose proof (Q TakeStop Logic.I) as W. cbn [step] in W. rewrite K, B in W. injection W as W. apply (f_equal kp) in W. cbn in W. congruence.
    + destruct (conns s) as [|i l] eqn:C; [congruence|]. assert (Hi : In i (conns s)) by (rewrite C; now left).
      assert (W : In (OWritten i) t) by (apply T, B2; now left). apply (iWr _ _ I) in W. apply (iIn _ _ I) in Hi. rewrite K in Hi.
      destruct Hi as [Hi|[Hi|[Hi _]]]; [destruct W; congruence| |discriminate].
      pose proof (Q (TakeConn i) Logic.I) as V. cbn [step] in V. rewrite K, Hi in V. injection V as V. apply (f_equal kp) in V. cbn in V. congruence.
  - pose proof (Q Ctl Logic.I) as W. cbn [step] in W. unfold step_ctl in W. rewrite F, K in W. cbn [closing conns w_conns] in W.
    destruct (closing s && is_nil (del i (conns s))); [discriminate|]. injection W as W. apply (f_equal kp) in W. cbn in W. congruence.
  - pose proof (Q Ctl Logic.I) as W. cbn [step] in W. unfold step_ctl in W. rewrite F, K in W.
    destruct (is_nil (conns s)); [apply (f_equal (fun x => length (fst x))) in W; cbn in W; rewrite app_length in W; cbn in W; lia|].
    apply (f_equal (fun x => kp (snd x))) in W. cbn in W. congruence.
Qed.

(** ** The program settles *)
Definition ph (c : cpc) : nat := match c with CFirst => 5 | CMid => 3 | CSecond => 2 | _ => 0 end.
Fixpoint sum (f : nat -> nat) (n : nat) : nat := match n with O => 0 | S m => f n + sum f m end.
Definition kw (k : kpc) : nat := match k with KConn _ | KStop => 1 | _ => 0 end.
Definition sw (c : spc) : nat := match c with SSend => 4 | SClose => 1 | _ => 0 end.
Definition lw (l : lpc) : nat := match l with LErr | LGot => 1 | _ => 0 end.
Definition rank (s : st) : nat := sum (fun i => ph (cp s i)) (curId s) + kw (kp s) + (if stopq s then 2 else 0) + sw (sp s 0) + lw (lp s).
Lemma sum_ext f g n : (forall i, 1 <= i <= n -> f i = g i) -> sum f n = sum g n.
Proof. induction n as [|n IH]; intro H; [reflexivity|]. cbn [sum]. rewrite H by lia. f_equal. apply IH. intros i Hi. apply H. lia. Qed.
Lemma sum_upd s i v n : 1 <= i <= n -> sum (fun j => ph (upd (cp s) i v j)) n + ph (cp s i) = sum (fun j => ph (cp s j)) n + ph v.
Proof.
  induction n as [|n IH]; intro H; [lia|]. cbn [sum]. destruct (Nat.eq_dec i (S n)) as [->|D].
  - rewrite upd_same. rewrite (sum_ext (fun j => ph (upd (cp s) (S n) v j)) (fun j => ph (cp s j)) n); [lia|]. intros j Hj. rewrite upd_other by lia. reflexivity.
  - rewrite (upd_other (cp s) i v (S n)) by lia. assert (L : 1 <= i <= n) by lia. specialize (IH L). lia.
Qed.
Lemma rank_step t s e o s' : Inv t s -> stage t s -> internal s e -> step s e = (o, s') -> (o, s') <> ([], s) -> rank s' < rank s.
Proof.
  intros I [A B] N E X. assert (IN : forall i, cp s i <> CNone -> 1 <= i <= curId s).
  { intros i H. destruct (le_lt_dec 1 i) as [L|L]; [destruct (le_lt_dec i (curId s)) as [L'|L']; [lia|]|]; exfalso; apply H, (iNone _ _ I); lia. }
  unfold rank. destruct e as [b| |k| |i| |i|i|i|i]; cbn [internal] in N; try contradiction; cbn [step] in E; unfold step_listen, step_stop, step_ctl, ok in E.
  - destruct (free s); [|congruence]. destruct (lp s) eqn:L; try congruence.
    + injection E as <- <-. cbn [curId cp kp stopq sp lp w_lp lw]. destruct (closing s); cbn [lw]; lia.
    + destruct (closing s); injection E as <- <-; cbn [curId cp kp stopq sp lp w_lp lw]; [lia|]. cbn [sum]. rewrite upd_same. cbn [ph].
      rewrite (sum_ext (fun j => ph (upd (cp s) (S (curId s)) CServe j)) (fun j => ph (cp s j))); [lia|]. intros j Hj. now rewrite upd_other by lia.
  - destruct (Nat.eq_dec k 0) as [->|D]; [|now rewrite (A k D) in N]. unfold step_stop in E. destruct (sp s 0) eqn:S0; try congruence.
    + destruct (stopq s) eqn:Q; [congruence|]. injection E as <- <-. cbn [curId cp kp stopq sp lp w_lock w_stopq w_sp]. rewrite upd_same. cbn [sw]. lia.
    + injection E as <- <-. cbn [curId cp kp stopq sp lp w_lclosed w_sp]. rewrite upd_same. cbn [sw]. lia.
  - destruct (kp s) eqn:K; try congruence. destruct (stopq s) eqn:Q; [|congruence]. injection E as <- <-. cbn [curId cp kp stopq sp lp w_kp w_stopq kw]. lia.
  - destruct (kp s) eqn:K; try congruence. destruct (cp s i) eqn:C; try congruence; injection E as <- <-; cbn [curId cp kp stopq sp lp w_kp w_cp kw].
    + assert (L : 1 <= i <= curId s) by (apply IN; congruence). pose proof (sum_upd s i CMid _ L) as Z. rewrite C in Z. cbn [ph] in Z. lia.
    + assert (L : 1 <= i <= curId s) by (apply IN; congruence). pose proof (sum_upd s i CEnd _ L) as Z. rewrite C in Z. cbn [ph] in Z. lia.
  - unfold step_ctl in E. destruct (free s); [|congruence]. destruct (kp s) as [|i| |] eqn:K; try congruence.
    + cbn [closing conns w_conns] in E. destruct (closing s && is_nil (del i (conns s))); injection E as <- <-; cbn [curId cp kp stopq sp lp w_kp w_conns kw]; lia.
    + destruct (is_nil (conns s)); injection E as <- <-; cbn [curId cp kp stopq sp lp w_kp kw]; lia.
  - destruct (cp s i) eqn:C; try congruence. destruct (rd s i); [congruence|]. injection E as <- <-. cbn [curId cp kp stopq sp lp w_cp].
    assert (L : 1 <= i <= curId s) by (apply IN; congruence). pose proof (sum_upd s i CSecond _ L) as Z. rewrite C in Z. cbn [ph] in Z. lia.
Qed.
Lemma internal_zero t s e : Inv t s -> stage t s -> internal s e -> forall k, e = Stop k -> k = 0.
Proof. intros I [A _] N k ->. cbn in N. destruct (Nat.eq_dec k 0) as [->|D]; [reflexivity|]. now rewrite (A k D) in N. Qed.
Lemma productive_bound es : forall t s, Inv t s -> stage t s -> productive s es -> length es <= rank s.
Proof.
  induction es as [|e es IH]; intros t s I G P; cbn [length]; [lia|]. cbn [productive] in P. destruct P as (N & M & P).
  destruct (step s e) as [o s'] eqn:E. cbn [snd] in P. pose proof (rank_step t s e o s' I G N E M).
  specialize (IH (t ++ o) s' (step_inv _ _ _ _ _ I E) (stage_step _ _ _ _ _ (internal_zero t s e I G N) I G E) P). lia.
Qed.

(** ** What is left behind *)
(** the connection whose report ended the loop *)
Definition last (t : list obs) (s : st) : Prop := (exists i, In (OTell i) t) -> kp s = KEnd -> exists i, In (OServe i) t /\ (cp s i = CMid \/ cp s i = CSecond).
Lemma last_step t s e o s' : Inv t s -> last t s -> step s e = (o, s') -> last (t ++ o) s'.
Proof.
  intros I L E [i T] K. pose proof (step_inv t s e o s' I E) as I'. destruct (kp s) as [|j| |] eqn:K0.
  - exfalso. destruct e as [b| |k'| |j| |j|j|j|j]; cbn [step] in E; unfold step_accept, step_listen, step_stop, step_ctl in E; rewrite ?K0 in E;
      repeat match goal with E : context [match ?x with _ => _ end] |- _ => destruct x eqn:? end; injection E as <- <-; cbn in K; congruence.
  - destruct e as [b| |k'| |j'| |j'|j'|j'|j']; try (exfalso; cbn [step] in E; unfold step_accept, step_listen, step_stop, step_ctl in E; rewrite ?K0 in E;
      repeat match goal with E : context [match ?x with _ => _ end] |- _ => destruct x eqn:? end; injection E as <- <-; cbn in K; congruence).
    cbn [step] in E. unfold step_ctl in E. destruct (free s); [|injection E as <- <-; congruence]. rewrite K0 in E. cbn [closing conns w_conns] in E.
    destruct (closing s && is_nil (del j (conns s))) eqn:B; injection E as <- <-; [|cbn in K; discriminate].
    assert (T' : In (OTell i) t) by (apply in_snoc in T; destruct T as [T|T]; [exact T|discriminate]).
    destruct (iTell _ _ I i T') as (_ & _ & [D|D]); [congruence|]. apply andb_prop in B. destruct B as [_ B]. apply is_nil_spec in B.
    assert (Hj : In j (conns s)). { destruct (conns s) as [|x l] eqn:C; [congruence|]. destruct (Nat.eq_dec x j) as [->|D']; [now left|].
      exfalso. assert (W : In x (del j (x :: l))) by (apply in_del; split; [now left|exact D']). rewrite B in W. exact W. }
    exists j. cbn [cp w_kp w_conns]. split.
    + apply in_snoc. left. apply (iSrv _ _ I). destruct (le_lt_dec 1 j) as [U|U]; [destruct (le_lt_dec j (curId s)) as [U'|U']; [lia|]|]; exfalso;
        (assert (W : cp s j = CNone) by (apply (iNone _ _ I); lia)); destruct (iKC _ _ I j K0) as [V|[V|V]]; congruence.
    + apply (iIn _ _ I) in Hj. destruct (iKC _ _ I j K0) as [V|[V|V]]; try tauto. rewrite V in Hj. destruct Hj as [Hj|[Hj|[_ [Hj|Hj]]]]; discriminate.
  - destruct e as [b| |k'| |j'| |j'|j'|j'|j']; try (exfalso; cbn [step] in E; unfold step_accept, step_listen, step_stop, step_ctl in E; rewrite ?K0 in E;
      repeat match goal with E : context [match ?x with _ => _ end] |- _ => destruct x eqn:? end; injection E as <- <-; cbn in K; congruence).
    cbn [step] in E. unfold step_ctl in E. destruct (free s); [|injection E as <- <-; congruence]. rewrite K0 in E.
    destruct (is_nil (conns s)) eqn:B; injection E as <- <-; [|cbn in K; discriminate]. apply is_nil_spec in B. rewrite B in T. cbn in T.
    apply in_snoc in T. destruct T as [T|T]; [|discriminate]. destruct (iTell _ _ I i T) as (_ & _ & [D|D]); congruence.
  - destruct (kend_stays s e o s' E K0) as [_ ST]. assert (T' : exists i, In (OTell i) t).
    { exists i. apply in_app_or in T. destruct T as [T|T]; [exact T|]. exfalso. destruct e as [b| |k'| |j'| |j'|j'|j'|j']; cbn [step] in E; unfold step_accept, step_listen, step_stop, step_ctl in E; rewrite ?K0 in E;
      repeat match goal with E : context [match ?x with _ => _ end] |- _ => destruct x eqn:? end; injection E as <- <-; cbn in T; try contradiction; destruct T as [T|T]; try discriminate T; contradiction. }
    destruct (L T' K0) as (j & SJ & CJ). exists j. split; [apply in_or_app; now left|].
    destruct e as [b| |k'| |j'| |j'|j'|j'|j']; cbn [step] in E; unfold step_accept, step_listen, step_stop, step_ctl in E; rewrite ?K0 in E;
      repeat match goal with E : context [match ?x with _ => _ end] |- _ => destruct x eqn:? end; injection E as <- <-; cbn; try exact CJ;
      unfold upd; match goal with |- context [?a =? ?b] => destruct (Nat.eqb_spec a b) as [->|D] end; try exact CJ; try tauto; try (destruct CJ; congruence).
    exfalso. apply (iSrv _ _ I) in SJ. lia.
Qed.
Lemma run_last es : forall t s o s', Inv t s -> last t s -> run s es = (o, s') -> last (t ++ o) s'.
Proof.
  intros t s o s' I L E. assert (G : (fun t s => Inv t s /\ last t s) (t ++ o) s').
  { apply (run_inv (fun t s => Inv t s /\ last t s)) with (es := es) (s := s); [|now split|exact E]. intros t0 s0 e o0 s0' [I0 L0] E0. split; [eapply step_inv|eapply last_step]; eauto. }
  apply G.
Qed.
Lemma kend_run es : forall s o s', kp s = KEnd -> run s es = (o, s') -> kp s' = KEnd /\ forall i, cp s' i = CEnd -> cp s i = CEnd.
Proof.
  induction es as [|e es IH]; intros s o s' K; cbn [run]. { intro E. injection E as <- <-. auto. }
  destruct (step s e) as [o1 s1] eqn:E1. destruct (run s1 es) as [o2 s2] eqn:E2. intro E. injection E as <- <-.
  destruct (kend_stays s e o1 s1 E1 K) as [K1 C1]. destruct (IH s1 o2 s2 K1 E2) as [K2 C2]. split; [exact K2|]. intros i H. now apply C1, C2.
Qed.

(** ** Stop that waits for ever *)
Definition stuck (s : st) (k : nat) : Prop := lock s = Some k /\ sp s k = SSend /\ stopq s = true /\ kp s <> KSel.
Lemma stuck_step s k e o s' : stuck s k -> step s e = (o, s') -> stuck s' k /\ forall j, In (OStopped j) o -> sp s j = SClose.
Proof.
  intros (L & P & Q & K) E. destruct e as [b| |k'| |j| |j|j|j|j]; cbn [step] in E.
  - unfold step_accept in E. destruct (lp s); injection E as <- <-; (split; [now repeat split|intros j []]).
  - unfold step_listen, free in E. rewrite L in E. injection E as <- <-. split; [now repeat split|intros j []].
  - unfold step_stop, free in E. rewrite L, Q in E. destruct (sp s k') eqn:S'; injection E as <- <-; try (split; [now repeat split|intros j []]).
    split; [|intros j [H|[]]; now injection H as <-]. split; [exact L|split; [|split; [exact Q|exact K]]]. cbn. rewrite upd_other; [exact P|]. congruence.
  - destruct (kp s) eqn:K0; try congruence; injection E as <- <-; (split; [repeat split; congruence|intros j []]).
  - destruct (kp s) eqn:K0; try congruence; injection E as <- <-; (split; [repeat split; congruence|intros j' []]).
  - unfold step_ctl, free in E. rewrite L in E. injection E as <- <-. split; [now repeat split|intros j []].
  - destruct (rd s j); injection E as <- <-; (split; [now repeat split|intros j' H; cbn in H; destruct H as [H|H]; [discriminate|contradiction]] || (split; [now repeat split|intros j' []])).
  - injection E as <- <-. split; [now repeat split|intros j' []].
  - destruct (cp s j); injection E as <- <-; (split; [now repeat split|]); intros j' H; cbn in H; try contradiction; destruct H as [H|H]; [discriminate|contradiction].
  - destruct (cp s j); try (injection E as <- <-; (split; [now repeat split|intros j' []])). destruct (rd s j); injection E as <- <-; (split; [now repeat split|intros j' []]).
Qed.
Lemma stuck_run es : forall s k o s', stuck s k -> run s es = (o, s') -> stuck s' k /\ ~ In (OStopped k) o /\ ~ In OEnd o.
Proof.
  induction es as [|e es IH]; intros s k o s' G; cbn [run]. { intro E. injection E as <- <-. split; [exact G|split; intros []]. }
  destruct (step s e) as [o1 s1] eqn:E1. destruct (run s1 es) as [o2 s2] eqn:E2. intro E. injection E as <- <-.
  destruct (stuck_step s k e o1 s1 G E1) as [G1 O1]. destruct (IH s1 k o2 s2 G1 E2) as (G2 & O2 & N2). split; [exact G2|]. rewrite !in_app_iff. split.
  - intros [H|H]; [|contradiction]. apply O1 in H. destruct G as (_ & P & _). congruence.
  - intros [H|H]; [|contradiction]. destruct G as (L & _ & _ & K). clear -E1 L H. destruct e as [b| |k'| |j| |j|j|j|j]; cbn [step] in E1; unfold step_accept, step_listen, step_stop, step_ctl, free in E1; rewrite ?L in E1;
      repeat match goal with E : context [match ?x with _ => _ end] |- _ => destruct x eqn:? end; injection E1 as <- <-; cbn in H; try contradiction; destruct H as [H|H]; try discriminate H; contradiction.
Qed.
