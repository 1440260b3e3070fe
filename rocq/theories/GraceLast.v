(** What holds when the server has ended. *)
From Coq Require Import ZArith List Bool Arith Lia.
Import ListNotations.
From Verif Require ListenModel ListenSpec ListenProofs ServerModel ServerSpec ServerProofs ServerTrace ServerIds ServerEnd GraceEnd.
From Verif Require Import GraceModel GraceSpec GraceProofs.

(** ** after the end *)
Lemma run_split : forall es s0 t s p x q, run s0 es = (t, Some s) -> t = p ++ x :: q ->
  exists es1 e es2 t1 s1 o1 o2 s2 t2, es = es1 ++ e :: es2 /\ run s0 es1 = (t1, Some s1) /\ step s1 e = (o1 ++ x :: o2, Some s2) /\ run s2 es2 = (t2, Some s) /\ p = t1 ++ o1 /\ q = o2 ++ t2.
Proof.
  induction es as [|e es IH]; intros s0 t s p x q E T; cbn [run] in E.
  - injection E as <- <-. now destruct p.
  - destruct (step s0 e) as [o [s1|]] eqn:E1; [|discriminate]. destruct (run s1 es) as [o' s'] eqn:E2. injection E as <- ->.
    assert (LATE : forall k, p = o ++ k -> o' = k ++ x :: q -> exists es1 e1 es2 t1 s3 o1 o2 s2 t2, e :: es = es1 ++ e1 :: es2 /\ run s0 es1 = (t1, Some s3) /\ step s3 e1 = (o1 ++ x :: o2, Some s2) /\ run s2 es2 = (t2, Some s) /\ p = t1 ++ o1 /\ q = o2 ++ t2).
    { intros k X1 X2. destruct (IH s1 o' s k x q E2 X2) as (es1 & e1 & es2 & t1 & s3 & o1 & o2 & s2 & t2 & A1 & A2 & A3 & A4 & A5 & A6).
      exists (e :: es1), e1, es2, (o ++ t1), s3, o1, o2, s2, t2. split; [now rewrite A1|]. split; [cbn [run]; now rewrite E1, A2|]. repeat (split; [assumption|]). split; [|exact A6]. rewrite X1, A5. now rewrite app_assoc. }
    apply app_eq_app in T. destruct T as (k & [[T1 T2]|[T1 T2]]); [|now apply (LATE k)].
    destruct k as [|y k]; [apply (LATE []); [rewrite T1; now rewrite !app_nil_r|now rewrite T2]|]. cbn in T2. injection T2 as <- ->.
    exists [], e, es, [], s0, p, k, s1, o'. split; [reflexivity|]. split; [reflexivity|]. split; [rewrite <- T1; exact E1|]. split; [exact E2|]. now split.
Qed.
Lemma lm_none evs : forall l o l' i, ListenModel.run l evs = (o, l') -> ListenModel.closing l = true -> ListenModel.cp l i = ListenModel.CNone -> ListenModel.closing l' = true /\ ListenModel.cp l' i = ListenModel.CNone.
Proof.
  induction evs as [|e evs IH]; intros l o l' i E C N; cbn [ListenModel.run] in E; [injection E as <- <-; now split|].
  destruct (ListenModel.step l e) as [o1 l1] eqn:E1. destruct (ListenModel.run l1 evs) as [o2 l2] eqn:E2. injection E as <- <-. apply (IH l1 o2 l2 i E2).
  - exact (ListenProofs.closing_stays _ _ _ _ E1 C).
  - clear E2 IH. destruct e as [b| |k| |j| |j|j|j|j]; cbn [ListenModel.step] in E1; unfold ListenModel.step_accept, ListenModel.step_listen, ListenModel.step_stop, ListenModel.step_ctl in E1; rewrite ?C in E1;
      repeat match goal with E : context [match ?x with _ => _ end] |- _ => destruct x eqn:? end; injection E1 as <- <-; cbn; try assumption; unfold ListenModel.upd; destruct (Nat.eqb_spec i j) as [->|]; try assumption; congruence.
Qed.
Lemma g_none es : forall s t s' i, run s es = (t, Some s') -> ListenModel.closing (lst s) = true -> ListenModel.cp (lst s) i = ListenModel.CNone -> ListenModel.cp (lst s') i = ListenModel.CNone.
Proof.
  intros s t s' i E C N. enough (X : ListenModel.closing (lst s') = true /\ ListenModel.cp (lst s') i = ListenModel.CNone) by tauto.
  refine (run_ind (fun _ s => ListenModel.closing (lst s) = true /\ ListenModel.cp (lst s) i = ListenModel.CNone) _ es [] s t s' (conj C N) E).
  clear. intros t s e o s' [C N] E. apply step_geff in E. destruct E; cbn [lst]; [now split| | |].
  - apply (lm_none [e] (lst s) o l i); [|exact C|exact N]. cbn [ListenModel.run]. rewrite H0. now rewrite app_nil_r.
  - split; [exact C|]. cbn. rewrite upd_eq. destruct (Nat.eqb_spec i i0); [congruence|exact N].
  - exact (lm_none _ _ _ _ i H2 C N).
Qed.
Definition reads (o : ServerModel.obs) : bool := match o with ServerModel.OReq _ _ | ServerModel.OPing _ => true | _ => false end.
Lemma g_done m es : forall t s o s' i, GI m t s -> run s es = (o, Some s') -> ServerModel.rp (con s i) = ServerModel.RDone -> forall x, In (OC i x) o -> reads x = false.
Proof.
  intros t s o s' i G E D. enough (X : GI m (t ++ o) s' /\ ServerModel.rp (con s' i) = ServerModel.RDone /\ forall x, In (OC i x) o -> reads x = false) by apply X.
  assert (Q : (fun o s' => GI m (t ++ o) s' /\ ServerModel.rp (con s' i) = ServerModel.RDone /\ forall x, In (OC i x) o -> reads x = false) ([] ++ o) s'); [|exact Q].
  apply (run_ind (fun o s' => GI m (t ++ o) s' /\ ServerModel.rp (con s' i) = ServerModel.RDone /\ forall x, In (OC i x) o -> reads x = false)) with (es := es) (s := s); [| |exact E].
  - clear. intros o s e o1 s' (G & D & X) E. split; [rewrite app_assoc; exact (GI_step _ _ _ _ _ _ G E)|]. apply step_geff in E. destruct E as [s e|s e o2 l O E|s j C K|s j e o2 c o' l C AR E1 E2]; cbn [con].
    + rewrite app_nil_r. now split.
    + split; [destruct (told_eof o2 (con s) i) as [-> | ->]; exact D|]. intros x H. apply in_app_or in H. destruct H as [H|H]; [now apply X|]. apply in_map_iff in H. destruct H as (? & H & _). discriminate.
    + split; [exact D|]. intros x H. apply in_app_or in H. destruct H as [H|[H|[]]]; [now apply X|discriminate].
    + rewrite upd_eq. destruct (Nat.eqb_spec i j) as [<-|N].
      * assert (EF : ServerProofs.eff (con s i) e o2 c) by (apply ServerProofs.step_eff; [exact (ServerProofs.SI_reach _ _ _ (gC _ _ _ G i))|exact E1]). split.
        -- clear -EF D. destruct EF; sfields; congruence.
        -- intros x H. rewrite !in_app_iff in H. destruct H as [H|[H|H]]; [now apply X| |apply in_map_iff in H; destruct H as (? & H & _); discriminate].
           apply in_map_iff in H. destruct H as (y & Y & H). injection Y as ->. clear -EF D H. destruct EF; cbn in H; try contradiction; try congruence; repeat destruct H as [<-|H]; try contradiction; try reflexivity.
      * split; [exact D|]. intros x H. rewrite !in_app_iff in H. destruct H as [H|[H|H]]; [now apply X| |apply in_map_iff in H; destruct H as (? & H & _); discriminate].
        apply in_map_iff in H. destruct H as (y & Y & H). congruence.
  - rewrite app_nil_r. split; [exact G|]. split; [exact D|]. intros x [].
Qed.
Lemma lm_no_end evs : forall l o l', ListenModel.run l evs = (o, l') -> forallb (fun e => negb (of_server e)) evs = true -> ~ In ListenModel.OEnd o.
Proof.
  induction evs as [|e evs IH]; intros l o l' E F H; cbn [ListenModel.run] in E; [injection E as <- <-; exact H|].
  destruct (ListenModel.step l e) as [o1 l1] eqn:E1. destruct (ListenModel.run l1 evs) as [o2 l2] eqn:E2. injection E as <- <-. cbn in F. apply andb_prop in F. destruct F as [F1 F2].
  apply in_app_or in H. destruct H as [H|H]; [|exact (IH l1 o2 l2 E2 F2 H)]. clear -E1 F1 H.
  destruct e; try discriminate; cbn [ListenModel.step] in E1; unfold ListenModel.ok in E1; [destruct (ListenModel.rd l i)| |destruct (ListenModel.cp l i)|destruct (ListenModel.cp l i); try destruct (ListenModel.rd l i)]; injection E1 as <- <-; cbn in H; intuition discriminate.
Qed.
(** the step that ends the server finds every connection with its writer ended *)
Lemma end_step m t s e o s' : GI m t s -> step s e = (o, Some s') -> In (OL ListenModel.OEnd) o ->
  (forall i, of_conn i o = []) /\ ListenModel.closing (lst s') = true /\ forall i, ListenModel.cp (lst s') i <> ListenModel.CNone -> GraceEnd.ended (con s' i).
Proof.
  intros G E H. pose proof (GI_step _ _ _ _ _ _ G E) as G'. apply step_geff in E. destruct (gL _ _ _ G') as [les EL]. pose proof (ListenProofs.start_inv _ _ _ EL) as I.
  assert (K : ListenModel.kp (lst s') = ListenModel.KEnd). { apply (ListenProofs.iEnd _ _ I). apply in_of_serv. apply in_or_app. now right. }
  destruct (ListenProofs.iEndE _ _ I K) as [CO CL].
  split; [|split; [exact CL|]].
  - intro i. destruct E as [s e|s e o l O E|s j C KK|s j e o c o' l C AR E1 E2]; [destruct H|apply of_conn_OL|reflexivity|]. exfalso.
    apply in_app_or in H. destruct H as [H|H]; [apply in_map_iff in H; destruct H as (? & H & _); discriminate|]. apply in_map_iff in H. destruct H as (x & X & H). injection X as ->.
    pose proof (ServerProofs.SI_reach _ _ _ (gC _ _ _ G j)) as SIi. pose proof (ServerProofs.step_eff _ _ _ _ SIi E1) as EF.
    destruct (seen_eff j _ _ _ _ SIi EF) as [(S1 & _)|[(S1 & _)|[(S1 & _)|(S1 & _)]]]; rewrite S1 in E2; exact (lm_no_end _ _ _ _ E2 eq_refl H).
  - intros i N. assert (W : ServerModel.csWrite (con s' i) = true). { apply (gWr _ _ _ G' i N). intro X. assert (Y : In i (ListenModel.conns (lst s'))) by (apply (ListenProofs.iIn _ _ I); now left). now rewrite CO in Y. }
    pose proof (ServerProofs.SI_reach _ _ _ (gC _ _ _ G' i)) as SIi. right. right. destruct (ServerModel.wp (con s' i)) eqn:P; try reflexivity; destruct (ServerProofs.si_w1 _ SIi) as [_ X]; congruence.
Qed.
Lemma graceful m es t s p q : run (g_init m) es = (t, Some s) -> t = p ++ OL ListenModel.OEnd :: q -> forall i, ~ In (OC i ServerModel.OWriteErr) p ->
  (forall id, In (OC i (ServerModel.OPing id)) t -> In (OC i (ServerModel.OWrite (ServerSpec.pong_of id))) p) /\
  (ServerSpec.distinct_ids (of_conn i t) -> forall r id, In (OC i (ServerModel.OReq r id)) t ->
     exists code body, In (OC i (ServerModel.OComp r code body)) p /\ In (OC i (ServerModel.OWrite (ServerModel.mkRes id (ServerModel.wire_code m code) body (Some r)))) p).
Proof.
  intros E T i N. destruct (run_split _ _ _ _ _ _ _ E T) as (es1 & e & es2 & t1 & s1 & o1 & o2 & s2 & t2 & A1 & A2 & A3 & A4 & A5 & A6).
  pose proof (GI_run _ _ _ _ A2) as G1. destruct (end_step _ _ _ _ _ _ G1 A3) as (B1 & B2 & B3). { apply in_or_app. right. now left. }
  pose proof (GI_step _ _ _ _ _ _ G1 A3) as G2. pose proof (gC _ _ _ G2 i) as R. rewrite of_conn_app, (B1 i), app_nil_r in R.
  assert (TT : t = t1 ++ (o1 ++ OL ListenModel.OEnd :: o2) ++ t2). { rewrite T, A5, A6. rewrite <- !app_assoc. reflexivity. }
  assert (PP : forall x, In x (of_conn i t1) -> In (OC i x) p). { intros x X. rewrite A5. apply in_or_app. left. now apply in_of_conn. }
  assert (TI : of_conn i t = of_conn i t1 ++ of_conn i t2). { rewrite TT, (of_conn_app i t1), (of_conn_app i (o1 ++ _) t2), B1. reflexivity. }
  assert (PI : forall x, In x (of_conn i p) -> In x (of_conn i t1)).
  { intros x X. rewrite A5, of_conn_app in X. apply in_app_or in X. destruct X as [X|X]; [exact X|]. exfalso. assert (Y : In x (of_conn i (o1 ++ OL ListenModel.OEnd :: o2))) by (rewrite of_conn_app; apply in_or_app; now left). now rewrite B1 in Y. }
  assert (CN : ListenModel.cp (lst s2) i = ListenModel.CNone \/ ListenModel.cp (lst s2) i <> ListenModel.CNone) by (destruct (ListenModel.cp (lst s2) i); (now left) || (right; discriminate)).
  destruct CN as [CN|CN].
  - pose proof (g_none _ _ _ _ i A4 B2 CN) as X. apply (gNone _ _ _ (GI_run _ _ _ _ E)) in X. destruct X as [_ X].
    split; [intros id H|intros _ r id H]; apply in_of_conn in H; rewrite X in H; destruct H.
  - assert (N1 : ~ In ServerModel.OWriteErr (of_conn i t1)) by (intro X; apply N, PP, X).
    destruct (GraceEnd.all_written _ _ _ R N1 (B3 i CN)) as (W1 & W2 & W3).
    assert (NEW : forall x, In (OC i x) t -> reads x = true -> In x (of_conn i t1)).
    { intros x H Hr. apply in_of_conn in H. rewrite TI in H. apply in_app_or in H. destruct H as [H|H]; [exact H|]. apply in_of_conn in H. rewrite (g_done _ _ _ _ _ _ i G2 A4 W1 x H) in Hr. discriminate. }
    split.
    + intros id H. apply PP, W2. exact (NEW _ H eq_refl).
    + intros D r id H. rewrite TI in D. destruct (W3 (ServerIds.distinct_app _ _ D) r id (NEW _ H eq_refl)) as (code & body & X1 & X2). exists code, body. split; now apply PP.
Qed.
