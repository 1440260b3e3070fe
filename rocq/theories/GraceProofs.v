(** Invariants of the server with its connections. *)
From Coq Require Import ZArith List Bool Arith Lia.
Import ListNotations.
From Verif Require ListenModel ListenSpec ListenProofs ServerModel ServerSpec ServerProofs ServerTrace ServerIds ServerEnd GraceEnd.
From Verif Require Import GraceModel GraceSpec.

Lemma of_conn_app i a b : of_conn i (a ++ b) = of_conn i a ++ of_conn i b. Proof. apply flat_map_app. Qed.
Lemma of_serv_app a b : of_serv (a ++ b) = of_serv a ++ of_serv b. Proof. apply flat_map_app. Qed.
Lemma of_conn_OL i o : of_conn i (map OL o) = []. Proof. induction o; [reflexivity|exact IHo]. Qed.
Lemma of_serv_OL o : of_serv (map OL o) = o. Proof. induction o; [reflexivity|cbn; now f_equal]. Qed.
Lemma of_serv_OC i o : of_serv (map (OC i) o) = []. Proof. induction o; [reflexivity|exact IHo]. Qed.
Lemma of_conn_OC i o : of_conn i (map (OC i) o) = o. Proof. induction o; [reflexivity|cbn; rewrite Nat.eqb_refl; cbn; now f_equal]. Qed.
Lemma of_conn_OC' i j o : j <> i -> of_conn i (map (OC j) o) = [].
Proof. intro N. induction o; [reflexivity|]. cbn. apply Nat.eqb_neq in N. rewrite N. exact IHo. Qed.
Lemma in_of_conn i o t : In o (of_conn i t) <-> In (OC i o) t.
Proof.
  unfold of_conn. rewrite in_flat_map. split.
  - intros ([x|j x] & H & X); [contradiction|]. destruct (Nat.eqb_spec j i) as [->|]; [|contradiction]. destruct X as [<-|[]]. exact H.
  - intro H. exists (OC i o). split; [exact H|]. rewrite Nat.eqb_refl. now left.
Qed.
Lemma in_of_serv o t : In o (of_serv t) <-> In (OL o) t.
Proof.
  unfold of_serv. rewrite in_flat_map. split.
  - intros ([x|j x] & H & X); [|contradiction]. destruct X as [<-|[]]. exact H.
  - intro H. exists (OL o). split; [exact H|now left].
Qed.

(** the steps that are not a crash *)
Inductive geff : st -> ev -> list obs -> st -> Prop :=
| G_skip s e : geff s e [] s
| G_serv s e o l : of_server e = true -> ListenModel.step (lst s) e = (o, l) -> geff s (EL e) (map OL o) (mkG l (told o (con s)))
| G_rep s i : ListenModel.cp (lst s) i = ListenModel.CServe -> ServerModel.kp (con s i) = ServerModel.KCancel [] -> geff s (EC i ServerModel.Control) [OL (ListenModel.OWritten i)] (mkG (ListenModel.w_cp (lst s) i ListenModel.CFirst) (con s))
| G_conn s i e o c o' l : ListenModel.cp (lst s) i <> ListenModel.CNone -> (at_report (con s i) e = true -> ListenModel.cp (lst s) i <> ListenModel.CServe /\ ListenModel.cp (lst s) i <> ListenModel.CFirst) ->
    ServerModel.step (con s i) e = (o, Some c) -> ListenModel.run (lst s) (seen i (con s i) o c) = (o', l) ->
    geff s (EC i e) (map (OC i) o ++ map OL o') (mkG l (ListenModel.upd (con s) i c)).
Lemma step_geff s e o s' : step s e = (o, Some s') -> geff s e o s'.
Proof.
  destruct e as [e|i e]; cbn [step].
  - unfold step_server. destruct (of_server e) eqn:O; [|intro E; injection E as <- <-; constructor].
    destruct (ListenModel.step (lst s) e) as [o1 l] eqn:E1. intro E. injection E as <- <-. now constructor.
  - assert (CONN : ListenModel.cp (lst s) i <> ListenModel.CNone -> (at_report (con s i) e = true -> ListenModel.cp (lst s) i <> ListenModel.CServe /\ ListenModel.cp (lst s) i <> ListenModel.CFirst) -> step_conn s i e = (o, Some s') -> geff s (EC i e) o s').
    { intros A B E. unfold step_conn in E. destruct (ServerModel.step (con s i) e) as [o1 [c|]] eqn:E1; [|discriminate].
      destruct (ListenModel.run (lst s) (seen i (con s i) o1 c)) as [o2 l] eqn:E2. injection E as <- <-. now constructor. }
    destruct (at_report (con s i) e) eqn:AR.
    + destruct (ListenModel.cp (lst s) i) eqn:C; try (intro E; injection E as <- <-; constructor); try (apply CONN; [discriminate|intros _; split; discriminate]).
      destruct (ListenModel.step (lst s) (ListenModel.CWritten i)) as [o1 l] eqn:E1. cbn [ListenModel.step] in E1. rewrite C in E1. injection E1 as <- <-. intro E. injection E as <- <-.
      unfold at_report in AR. destruct e; try discriminate. destruct (ServerModel.kp (con s i)) as [| | |[|r l]| | |] eqn:K; try discriminate. now constructor.
    + destruct (ListenModel.cp (lst s) i) eqn:C; try (intro E; injection E as <- <-; constructor); apply CONN; discriminate.
Qed.
(** what a step of a connection does to the server's view of it *)
Lemma seen_eff i c e o c' : ServerProofs.SI c -> ServerProofs.eff c e o c' ->
  (seen i c o c' = [] /\ reader_done c' = reader_done c /\ (ServerModel.kp c' = ServerModel.KDone <-> ServerModel.kp c = ServerModel.KDone) /\ existsb is_req o = false) \/
  (seen i c o c' = [ListenModel.CRead i] /\ reader_done c = false /\ reader_done c' = false /\ (ServerModel.kp c' = ServerModel.kp c)) \/
  (seen i c o c' = [ListenModel.CEof i] /\ reader_done c = false /\ reader_done c' = true /\ (ServerModel.kp c' = ServerModel.kp c) /\ o = []) \/
  (seen i c o c' = [ListenModel.CGo i] /\ reader_done c = true /\ reader_done c' = true /\ ServerModel.csWrite c = true /\ ServerModel.kp c <> ServerModel.KDone /\ ServerModel.kp c' = ServerModel.KDone /\ e = ServerModel.Control /\ (ServerModel.kp c = ServerModel.KRead \/ ServerModel.kp c = ServerModel.KCancel [])).
Proof.
  intros S H. unfold seen.
  destruct H; cbn [existsb is_req is_closed orb];
    unfold reader_done; cbn [ServerModel.w_rp ServerModel.w_wp ServerModel.w_kp ServerModel.w_inFly ServerModel.w_comp ServerModel.w_new ServerModel.w_out ServerModel.w_closed ServerModel.w_buf ServerModel.w_notes ServerModel.w_csRead ServerModel.w_csWrite ServerModel.w_eof ServerModel.w_waits ServerModel.w_blk ServerModel.put ServerModel.notify ServerModel.rp ServerModel.kp];
    try (left; repeat split; try tauto; try congruence; destruct (ServerModel.rp s); (reflexivity || congruence));
    try (left; rewrite ?H, ?H0; repeat split; try tauto; try congruence; destruct (ServerModel.rp s); (reflexivity || congruence)).
  - right. left. rewrite H. now repeat split.
  - right. right. left. rewrite H. now repeat split.
  - right. right. right. assert (D : ServerModel.rp s = ServerModel.RDone) by (destruct (ServerModel.rp s) eqn:P; try reflexivity; destruct (ServerProofs.si_r1 _ S) as (_ & X & _); congruence). rewrite D. repeat split; try congruence; tauto.
  - right. right. right. assert (D : ServerModel.rp s = ServerModel.RDone) by (destruct (ServerModel.rp s) eqn:P; try reflexivity; destruct (ServerProofs.si_r1 _ S) as (_ & X & _); congruence). rewrite D. repeat split; try congruence; tauto.
  - right. right. right. assert (D : ServerModel.rp s = ServerModel.RDone) by (destruct (ServerModel.rp s) eqn:P; try reflexivity; destruct (ServerProofs.si_r1 _ S) as (_ & _ & X); congruence). rewrite D. repeat split; try congruence; tauto.
Qed.

Lemma told_eof o f i : told o f i = f i \/ told o f i = ServerModel.w_eof (f i) true.
Proof. unfold told. destruct (tells i o); tauto. Qed.
Lemma tells_in i o : tells i o = true <-> In (ListenModel.OTell i) o.
Proof.
  unfold tells. rewrite existsb_exists. split.
  - intros (x & H & X). destruct x; try discriminate. apply Nat.eqb_eq in X. now subst.
  - intro H. exists (ListenModel.OTell i). split; [exact H|apply Nat.eqb_refl].
Qed.
(** the steps of the server leave the connections' stages alone, except that it takes reports and accepts *)
Definition moves (l l' : ListenModel.st) : Prop := forall i,
  (ListenModel.cp l' i = ListenModel.cp l i /\ ListenModel.rd l' i = ListenModel.rd l i) \/
  (ListenModel.cp l i = ListenModel.CFirst /\ ListenModel.cp l' i = ListenModel.CMid /\ ListenModel.rd l' i = ListenModel.rd l i) \/
  (ListenModel.cp l i = ListenModel.CSecond /\ ListenModel.cp l' i = ListenModel.CEnd /\ ListenModel.rd l' i = ListenModel.rd l i) \/
  (i = S (ListenModel.curId l) /\ ListenModel.cp l' i = ListenModel.CServe /\ ListenModel.rd l' i = true).
Lemma serv_moves l e o l' : of_server e = true -> ListenModel.step l e = (o, l') -> moves l l'.
Proof.
  intros O E i. destruct e as [b| |k| |j| |j|j|j|j]; try discriminate; cbn [ListenModel.step] in E; unfold ListenModel.step_accept, ListenModel.step_listen, ListenModel.step_stop, ListenModel.step_ctl in E;
    repeat match goal with E : context [match ?x with _ => _ end] |- _ => destruct x eqn:? end;
    injection E as <- <-; cbn; try (left; split; reflexivity); unfold ListenModel.upd; destruct (Nat.eqb_spec i (S (ListenModel.curId l))) as [->|]; try (left; split; reflexivity); try tauto.
  - destruct (Nat.eqb_spec (S (ListenModel.curId l)) j) as [<-|]; tauto.
  - destruct (Nat.eqb_spec i j) as [->|]; tauto.
  - destruct (Nat.eqb_spec (S (ListenModel.curId l)) j) as [<-|]; tauto.
  - destruct (Nat.eqb_spec i j) as [->|]; tauto.
Qed.

Record GI (m : option ServerModel.rcmap) (t : list obs) (s : st) : Prop := mkGI {
  gL : exists les, ListenModel.start les = (of_serv t, lst s);
  gC : forall i, ServerProofs.reach m (con s i) (of_conn i t);
  gNone : forall i, ListenModel.cp (lst s) i = ListenModel.CNone -> con s i = ServerModel.s_init m /\ of_conn i t = [];
  gRd : forall i, ListenModel.cp (lst s) i <> ListenModel.CNone -> ListenModel.rd (lst s) i = negb (reader_done (con s i));
  gServe : forall i, ListenModel.cp (lst s) i = ListenModel.CServe -> ServerModel.csWrite (con s i) = true -> match ServerModel.kp (con s i) with ServerModel.KWrite | ServerModel.KCancel _ | ServerModel.KResp _ _ | ServerModel.KBlock _ => True | _ => False end;
  gWr : forall i, ListenModel.cp (lst s) i <> ListenModel.CNone -> ListenModel.cp (lst s) i <> ListenModel.CServe -> ServerModel.csWrite (con s i) = true;
  gFirst : forall i, ListenModel.cp (lst s) i = ListenModel.CFirst -> ServerModel.kp (con s i) = ServerModel.KCancel [];
  gMid : forall i, ListenModel.cp (lst s) i = ListenModel.CMid -> match ServerModel.kp (con s i) with ServerModel.KCancel [] | ServerModel.KRecv | ServerModel.KRead => True | _ => False end;
  gEnd : forall i, ServerModel.kp (con s i) = ServerModel.KDone <-> (ListenModel.cp (lst s) i = ListenModel.CSecond \/ ListenModel.cp (lst s) i = ListenModel.CEnd);
  gTell : forall i, In (OL (ListenModel.OTell i)) t -> ServerModel.eof (con s i) = true }.
Lemma GI_init m : GI m [] (g_init m).
Proof.
  constructor; cbn; try (intros; discriminate); try (intros; congruence); try (intros; contradiction).
  - now exists [].
  - intro. constructor.
  - intros. now split.
  - intros i. split; [discriminate|]. intros [H|H]; discriminate.
Qed.
Lemma start_snoc les t l evs o l' : ListenModel.start les = (t, l) -> ListenModel.run l evs = (o, l') -> ListenModel.start (les ++ evs) = (t ++ o, l').
Proof. intros E1 E2. unfold ListenModel.start in *. rewrite ListenProofs.run_app, E1, E2. reflexivity. Qed.
Lemma none_next t l les : ListenModel.start les = (t, l) -> ListenModel.cp l (S (ListenModel.curId l)) = ListenModel.CNone.
Proof. intro E. apply (ListenProofs.iNone _ _ (ListenProofs.start_inv _ _ _ E)). lia. Qed.
Lemma GI_serv m t s e o l : GI m t s -> of_server e = true -> ListenModel.step (lst s) e = (o, l) -> GI m (t ++ map OL o) (mkG l (told o (con s))).
Proof.
  intros G O E. pose proof (serv_moves _ _ _ _ O E) as M. destruct (gL _ _ _ G) as [les EL].
  assert (SAME : forall i, ServerModel.kp (told o (con s) i) = ServerModel.kp (con s i) /\ ServerModel.csWrite (told o (con s) i) = ServerModel.csWrite (con s i) /\ reader_done (told o (con s) i) = reader_done (con s i)).
  { intro i. destruct (told_eof o (con s) i) as [-> | ->]; now split. }
  pose proof (none_next _ _ _ EL) as NN.
  assert (NX : forall i, i = S (ListenModel.curId (lst s)) -> con s i = ServerModel.s_init m). { intros i ->. now apply (gNone _ _ _ G). }
  constructor; cbn [lst con].
  - exists (les ++ [e]). rewrite of_serv_app, of_serv_OL. apply (start_snoc _ _ _ _ _ _ EL). cbn [ListenModel.run]. rewrite E. now rewrite app_nil_r.
  - intro i. rewrite of_conn_app, of_conn_OL. destruct (told_eof o (con s) i) as [-> | ->]; [rewrite app_nil_r; apply G|]. apply (ServerProofs.reachS m (con s i) _ ServerModel.NetClose); [apply G|reflexivity].
  - intros i C. rewrite of_conn_app, of_conn_OL, app_nil_r. destruct (M i) as [[M1 _]|[(_ & M1 & _)|[(_ & M1 & _)|(_ & M1 & _)]]]; try congruence.
    rewrite M1 in C. destruct (gNone _ _ _ G i C) as [N1 N2]. split; [|exact N2]. rewrite <- N1. unfold told. destruct (tells i o) eqn:T; [|reflexivity]. exfalso.
    apply tells_in in T. assert (TT : In (ListenModel.OTell i) (of_serv t ++ o)) by (apply in_or_app; now right). assert (I : ListenProofs.Inv (of_serv t ++ o) l) by (apply (ListenProofs.step_inv _ _ _ _ _ (ListenProofs.start_inv _ _ _ EL) E)).
    destruct (ListenProofs.iTell _ _ I i TT) as (_ & T2 & _). rewrite <- M1 in C. apply (ListenProofs.iNone _ _ I) in C. contradiction.
  - intros i C. destruct (SAME i) as (_ & _ & ->). destruct (M i) as [[M1 M2]|[(M0 & M1 & M2)|[(M0 & M1 & M2)|(M0 & M1 & M2)]]]; rewrite M2.
    + apply (gRd _ _ _ G). congruence.
    + apply (gRd _ _ _ G). congruence.
    + apply (gRd _ _ _ G). congruence.
    + rewrite (NX i M0). reflexivity.
  - intros i C W. destruct (SAME i) as (K & W' & _). rewrite K. rewrite W' in W. destruct (M i) as [[M1 M2]|[(M0 & M1 & M2)|[(M0 & M1 & M2)|(M0 & M1 & M2)]]]; try congruence.
    + apply (gServe _ _ _ G); congruence.
    + rewrite (NX i M0) in W. discriminate.
  - intros i C1 C2. destruct (SAME i) as (_ & -> & _). destruct (M i) as [[M1 M2]|[(M0 & M1 & M2)|[(M0 & M1 & M2)|(M0 & M1 & M2)]]]; try congruence; apply (gWr _ _ _ G); congruence.
  - intros i C. destruct (SAME i) as (-> & _). destruct (M i) as [[M1 M2]|[(M0 & M1 & M2)|[(M0 & M1 & M2)|(M0 & M1 & M2)]]]; try congruence. apply (gFirst _ _ _ G). congruence.
  - intros i C. destruct (SAME i) as (-> & _). destruct (M i) as [[M1 M2]|[(M0 & M1 & M2)|[(M0 & M1 & M2)|(M0 & M1 & M2)]]]; try congruence.
    + apply (gMid _ _ _ G). congruence.
    + now rewrite (gFirst _ _ _ G i M0).
  - intros i. destruct (SAME i) as (-> & _). rewrite (gEnd _ _ _ G i). destruct (M i) as [[M1 M2]|[(M0 & M1 & M2)|[(M0 & M1 & M2)|(M0 & M1 & M2)]]]; rewrite M1; rewrite ?M0; try tauto; try (split; intros [X|X]; (discriminate || tauto)).
    subst i. rewrite NN. split; intros [X|X]; discriminate.
  - intros i T. apply in_app_or in T. destruct T as [T|T].
    + apply (gTell _ _ _ G) in T. destruct (told_eof o (con s) i) as [-> | ->]; [exact T|reflexivity].
    + apply in_map_iff in T. destruct T as (x & X & T). injection X as ->. apply tells_in in T. unfold told. rewrite T. reflexivity.
Qed.

Ltac sfields := cbn [ServerModel.w_rp ServerModel.w_wp ServerModel.w_kp ServerModel.w_inFly ServerModel.w_comp ServerModel.w_new ServerModel.w_out ServerModel.w_closed ServerModel.w_buf ServerModel.w_notes ServerModel.w_csRead ServerModel.w_csWrite ServerModel.w_eof ServerModel.w_waits ServerModel.w_blk ServerModel.put ServerModel.notify ServerModel.rp ServerModel.kp ServerModel.csWrite ServerModel.eof ServerModel.notes] in *.
Lemma keeps c e o c' : ServerProofs.eff c e o c' -> (ServerModel.csWrite c = true -> ServerModel.csWrite c' = true) /\ (ServerModel.eof c = true -> ServerModel.eof c' = true).
Proof. intro H. destruct H; sfields; tauto. Qed.
(** the stages of a control loop *)
Lemma loop_serve c e o c' : ServerProofs.SI c -> ServerProofs.eff c e o c' -> at_report c e = false ->
  (ServerModel.csWrite c = true -> match ServerModel.kp c with ServerModel.KWrite | ServerModel.KCancel _ | ServerModel.KResp _ _ | ServerModel.KBlock _ => True | _ => False end) ->
  ServerModel.csWrite c' = true -> match ServerModel.kp c' with ServerModel.KWrite | ServerModel.KCancel _ | ServerModel.KResp _ _ | ServerModel.KBlock _ => True | _ => False end.
Proof.
  intros S H A P. unfold at_report in A. destruct H; sfields; intro W; try exact Logic.I; try (apply P; exact W); try (specialize (P W); rewrite ?H in P; contradiction).
  all: try (rewrite H in A; discriminate).
  all: specialize (P H4); rewrite H in P; contradiction.
Qed.
Lemma loop_mid c e o c' : ServerProofs.SI c -> ServerProofs.eff c e o c' -> ServerModel.csWrite c = true ->
  match ServerModel.kp c with ServerModel.KCancel [] | ServerModel.KRecv | ServerModel.KRead => True | _ => False end ->
  ServerModel.kp c' <> ServerModel.KDone -> match ServerModel.kp c' with ServerModel.KCancel [] | ServerModel.KRecv | ServerModel.KRead => True | _ => False end.
Proof.
  intros S H W P N. destruct H; sfields; try exact Logic.I; try exact P; try (rewrite H in P; contradiction); try congruence.
  - apply (ServerProofs.si_w3 _ S W). rewrite H0. now left.
  - rewrite H0 in P. contradiction.
Qed.
Lemma loop_first c e o c' : ServerProofs.eff c e o c' -> at_report c e = false -> ServerModel.kp c = ServerModel.KCancel [] -> ServerModel.kp c' = ServerModel.KCancel [].
Proof. intros H A P. unfold at_report in A. destruct H; sfields; try exact P; try congruence; rewrite P in A; discriminate. Qed.
Lemma upd_eq {A} (f : nat -> A) k v i : ListenModel.upd f k v i = if Nat.eqb i k then v else f i. Proof. reflexivity. Qed.
Lemma GI_rep m t s i : GI m t s -> ListenModel.cp (lst s) i = ListenModel.CServe -> ServerModel.kp (con s i) = ServerModel.KCancel [] ->
  GI m (t ++ [OL (ListenModel.OWritten i)]) (mkG (ListenModel.w_cp (lst s) i ListenModel.CFirst) (con s)).
Proof.
  intros G C K. destruct (gL _ _ _ G) as [les EL]. pose proof (ServerProofs.SI_reach _ _ _ (gC _ _ _ G i)) as SIi.
  constructor; cbn [lst con ListenModel.cp ListenModel.rd ListenModel.w_cp].
  - exists (les ++ [ListenModel.CWritten i]). rewrite of_serv_app. cbn [of_serv flat_map app]. apply (start_snoc _ _ _ _ _ _ EL). cbn [ListenModel.run ListenModel.step]. now rewrite C.
  - intro j. rewrite of_conn_app. cbn. rewrite app_nil_r. apply G.
  - intros j. rewrite upd_eq, of_conn_app. cbn. rewrite app_nil_r. destruct (Nat.eqb j i); [discriminate|apply G].
  - intros j. rewrite upd_eq. destruct (Nat.eqb_spec j i) as [->|]; [intros _; apply (gRd _ _ _ G); congruence|apply G].
  - intros j. rewrite upd_eq. destruct (Nat.eqb j i); [discriminate|apply G].
  - intros j. rewrite upd_eq. destruct (Nat.eqb_spec j i) as [->|]; [|apply G]. intros _ _. pose proof (ServerProofs.si_k1 _ SIi) as X. rewrite K in X. exact X.
  - intros j. rewrite upd_eq. destruct (Nat.eqb_spec j i) as [->|]; [now intros _|apply G].
  - intros j. rewrite upd_eq. destruct (Nat.eqb_spec j i) as [->|]; [discriminate|apply G].
  - intros j. rewrite upd_eq. destruct (Nat.eqb_spec j i) as [->|]; [|apply G]. rewrite K. split; [discriminate|]. intros [X|X]; discriminate.
  - intros j T. apply in_app_or in T. destruct T as [T|[T|[]]]; [now apply (gTell _ _ _ G)|discriminate].
Qed.
Lemma GI_conn m t s i e o c o' l : GI m t s -> ListenModel.cp (lst s) i <> ListenModel.CNone -> (at_report (con s i) e = true -> ListenModel.cp (lst s) i <> ListenModel.CServe /\ ListenModel.cp (lst s) i <> ListenModel.CFirst) ->
  ServerModel.step (con s i) e = (o, Some c) -> ListenModel.run (lst s) (seen i (con s i) o c) = (o', l) -> GI m (t ++ map (OC i) o ++ map OL o') (mkG l (ListenModel.upd (con s) i c)).
Proof.
  intros G C AR E1 E2. destruct (gL _ _ _ G) as [les EL]. pose proof (ServerProofs.SI_reach _ _ _ (gC _ _ _ G i)) as SIi.
  pose proof (ServerProofs.step_eff _ _ _ _ SIi E1) as H. destruct (keeps _ _ _ _ H) as [KW KE].
  assert (STAGE : (l = lst s /\ reader_done c = reader_done (con s i) /\ (ServerModel.kp c = ServerModel.KDone <-> ServerModel.kp (con s i) = ServerModel.KDone) /\ (forall j, ~ In (ListenModel.OTell j) o')) \/
                  (l = ListenModel.w_rd (lst s) i false /\ reader_done c = true /\ (ServerModel.kp c = ServerModel.KDone <-> ServerModel.kp (con s i) = ServerModel.KDone) /\ (forall j, ~ In (ListenModel.OTell j) o')) \/
                  (l = ListenModel.w_cp (lst s) i ListenModel.CSecond /\ reader_done c = reader_done (con s i) /\ ServerModel.kp c = ServerModel.KDone /\ ListenModel.cp (lst s) i = ListenModel.CMid /\ (forall j, ~ In (ListenModel.OTell j) o'))).
  { destruct (seen_eff i _ _ _ _ SIi H) as [(S1 & S2 & S3 & _)|[(S1 & S2 & S3 & S4)|[(S1 & S2 & S3 & S4 & _)|(S1 & S2 & S3 & S4 & S5 & S6 & S7 & S8)]]]; rewrite S1 in E2; cbn [ListenModel.run ListenModel.step] in E2.
    - injection E2 as <- <-. left. repeat split; try assumption; try tauto. all: try (intros j []).
    - rewrite (gRd _ _ _ G i C), S2 in E2. cbn in E2. injection E2 as <- <-. left. rewrite S2, S3, S4. repeat split; try tauto. all: try (intros j [X|[]]; discriminate).
    - injection E2 as <- <-. right. left. rewrite S4. repeat split; try tauto. all: try (intros j []).
    - assert (CM : ListenModel.cp (lst s) i = ListenModel.CMid).
      { destruct (ListenModel.cp (lst s) i) eqn:CC; try reflexivity; try congruence; exfalso.
        - pose proof (gServe _ _ _ G i CC S4) as X. destruct S8 as [S8|S8]; rewrite S8 in X; [contradiction|]. unfold at_report in AR. rewrite S7, S8 in AR. destruct (AR eq_refl). congruence.
        - pose proof (gFirst _ _ _ G i CC) as X. unfold at_report in AR. rewrite S7, X in AR. destruct (AR eq_refl). congruence.
        - apply S5. apply (gEnd _ _ _ G). now left.
        - apply S5. apply (gEnd _ _ _ G). now right. }
      rewrite CM, (gRd _ _ _ G i C), S2 in E2. cbn in E2. injection E2 as <- <-. right. right. rewrite S2, S3. repeat split; try assumption. all: try (intros j []). }
  assert (NCP : ListenModel.cp l i <> ListenModel.CNone). { destruct STAGE as [(-> & _)|[(-> & _)|(-> & _)]]; try exact C. cbn. rewrite upd_eq, Nat.eqb_refl. discriminate. }
  assert (OTH : forall j, j <> i -> ListenModel.cp l j = ListenModel.cp (lst s) j /\ ListenModel.rd l j = ListenModel.rd (lst s) j).
  { intros j N. apply Nat.eqb_neq in N. destruct STAGE as [(-> & _)|[(-> & _)|(-> & _)]]; cbn; rewrite ?upd_eq, ?N; now split. }
  assert (NT : forall j, ~ In (ListenModel.OTell j) o') by (destruct STAGE as [(_ & _ & _ & X)|[(_ & _ & _ & X)|(_ & _ & _ & _ & X)]]; exact X).
  assert (OLD : ListenModel.cp l i = ListenModel.cp (lst s) i \/ (ListenModel.cp l i = ListenModel.CSecond /\ ServerModel.kp c = ServerModel.KDone /\ ListenModel.cp (lst s) i = ListenModel.CMid)).
  { destruct STAGE as [(-> & _)|[(-> & _)|(-> & _ & K & CM & _)]]; [now left|now left|right]. cbn. rewrite upd_eq, Nat.eqb_refl. tauto. }
  constructor; cbn [lst con].
  - exists (les ++ seen i (con s i) o c). rewrite !of_serv_app, of_serv_OC, of_serv_OL. now apply (start_snoc _ _ _ _ _ _ EL).
  - intro j. rewrite !of_conn_app, of_conn_OL, upd_eq. destruct (Nat.eqb_spec j i) as [->|N].
    + rewrite of_conn_OC, app_nil_r. apply (ServerProofs.reachS m (con s i) _ e); [apply G|exact E1].
    + rewrite of_conn_OC' by congruence. rewrite !app_nil_r. apply G.
  - intros j X. rewrite !of_conn_app, of_conn_OL, upd_eq. destruct (Nat.eqb_spec j i) as [->|N]; [contradiction|]. rewrite of_conn_OC' by congruence. rewrite !app_nil_r. apply (gNone _ _ _ G). destruct (OTH j N). congruence.
  - intros j X. rewrite upd_eq. destruct (Nat.eqb_spec j i) as [->|N].
    + destruct STAGE as [(-> & -> & _)|[(-> & -> & _)|(-> & -> & _)]]; cbn; [now apply (gRd _ _ _ G)|now rewrite upd_eq, Nat.eqb_refl|now apply (gRd _ _ _ G)].
    + destruct (OTH j N) as [X1 X2]. rewrite X2. apply (gRd _ _ _ G). congruence.
  - intros j. rewrite upd_eq. destruct (Nat.eqb_spec j i) as [->|N]; [|destruct (OTH j N) as [-> _]; apply G]. intros X W. destruct OLD as [Y|(Y & _)]; [|congruence]. rewrite Y in X.
    apply (loop_serve _ _ _ _ SIi H); [|now apply (gServe _ _ _ G)|exact W]. destruct (at_report (con s i) e); [|reflexivity]. destruct AR as [AR _]; [reflexivity|]. congruence.
  - intros j. rewrite upd_eq. destruct (Nat.eqb_spec j i) as [->|N]; [|destruct (OTH j N) as [-> _]; apply G]. intros X1 X2. apply KW. apply (gWr _ _ _ G); [exact C|]. destruct OLD as [Y|(_ & _ & Y)]; congruence.
  - intros j. rewrite upd_eq. destruct (Nat.eqb_spec j i) as [->|N]; [|destruct (OTH j N) as [-> _]; apply G]. intros X. destruct OLD as [Y|(Y & _)]; [|congruence]. rewrite Y in X.
    apply (loop_first _ _ _ _ H); [|now apply (gFirst _ _ _ G)]. destruct (at_report (con s i) e); [|reflexivity]. destruct AR as [_ AR]; [reflexivity|]. congruence.
  - intros j. rewrite upd_eq. destruct (Nat.eqb_spec j i) as [->|N]; [|destruct (OTH j N) as [-> _]; apply G]. intros X. destruct OLD as [Y|(Y & _)]; [|congruence]. rewrite Y in X.
    apply (loop_mid _ _ _ _ SIi H); [apply (gWr _ _ _ G); congruence|now apply (gMid _ _ _ G)|].
    destruct STAGE as [(_ & _ & K & _)|[(_ & _ & K & _)|(Z & _)]]; [| |rewrite Z in Y; cbn in Y; rewrite upd_eq, Nat.eqb_refl in Y; congruence].
    + rewrite K, (gEnd _ _ _ G), X. intros [Q|Q]; discriminate.
    + rewrite K, (gEnd _ _ _ G), X. intros [Q|Q]; discriminate.
  - intros j. rewrite upd_eq. destruct (Nat.eqb_spec j i) as [->|N]; [|destruct (OTH j N) as [-> _]; apply G].
    destruct STAGE as [(-> & _ & K & _)|[(-> & _ & K & _)|(-> & _ & K & _)]]; [rewrite K; apply G|rewrite K; cbn; apply G|]. cbn. rewrite upd_eq, Nat.eqb_refl. tauto.
  - intros j T. rewrite !in_app_iff in T. assert (T' : In (OL (ListenModel.OTell j)) t).
    { destruct T as [T|[T|T]]; [exact T|apply in_map_iff in T; destruct T as (? & T & _); discriminate|]. apply in_map_iff in T. destruct T as (x & X & T). injection X as ->. now apply NT in T. }
    apply (gTell _ _ _ G) in T'. rewrite upd_eq. destruct (Nat.eqb_spec j i) as [->|]; [now apply KE|exact T'].
Qed.
Lemma GI_step m t s e o s' : GI m t s -> step s e = (o, Some s') -> GI m (t ++ o) s'.
Proof.
  intros G E. apply step_geff in E. destruct E; [now rewrite app_nil_r|now apply (GI_serv m t s e)|now apply GI_rep|now apply (GI_conn m t s i e o c o' l)].
Qed.
Lemma run_ind (P : list obs -> st -> Prop) : (forall t s e o s', P t s -> step s e = (o, Some s') -> P (t ++ o) s') ->
  forall es t s o s', P t s -> run s es = (o, Some s') -> P (t ++ o) s'.
Proof.
  intro H. induction es as [|e es IH]; intros t s o s' HP E; cbn [run] in E.
  - injection E as <- <-. now rewrite app_nil_r.
  - destruct (step s e) as [o1 [s1|]] eqn:E1; [|discriminate]. destruct (run s1 es) as [o2 s2] eqn:E2. injection E as <- ->.
    rewrite app_assoc. apply (IH (t ++ o1) s1); [|exact E2]. now apply (H t s e).
Qed.
Lemma GI_run m es t s : run (g_init m) es = (t, Some s) -> GI m t s.
Proof. intro E. apply (run_ind (GI m) (fun t s e o s' => GI_step m t s e o s') es [] (g_init m) t s (GI_init m) E). Qed.
