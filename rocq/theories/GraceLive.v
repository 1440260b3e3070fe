(** A server that is stopped settles, and ends. *)
From Coq Require Import ZArith List Bool Arith Lia.
Import ListNotations.
From Verif Require ListenModel ListenSpec ListenProofs ServerModel ServerSpec ServerProofs ServerTrace ServerIds ServerEnd GraceEnd.
From Verif Require Import GraceModel GraceSpec GraceProofs.

(** ** the server's part of a run *)
Lemma seen_nostop i c o c' k : ~ In (ListenModel.Stop k) (seen i c o c').
Proof. unfold seen. rewrite !in_app_iff. intros [H|[H|H]]; [destruct (existsb is_req o)|destruct (negb (reader_done c) && reader_done c')|destruct (existsb is_closed o)]; cbn in H; intuition discriminate. Qed.
Lemma step_lrun s e o s' : step s e = (o, Some s') -> exists les, ListenModel.run (lst s) les = (of_serv o, lst s') /\ forall k, In (ListenModel.Stop k) les <-> e = EL (ListenModel.Stop k).
Proof.
  destruct e as [e|i e]; cbn [step].
  - unfold step_server. destruct (of_server e) eqn:O.
    + destruct (ListenModel.step (lst s) e) as [o1 l] eqn:E1. intro E. injection E as <- <-. exists [e]. cbn [ListenModel.run]. rewrite E1, of_serv_OL, app_nil_r. split; [reflexivity|]. intro k. cbn. split; [intros [->|[]]; reflexivity|]. intro X. injection X as ->. now left.
    + intro E. injection E as <- <-. exists []. split; [reflexivity|]. intro k. cbn. split; [tauto|]. intro X. injection X as ->. discriminate.
  - assert (CONN : step_conn s i e = (o, Some s') -> exists les, ListenModel.run (lst s) les = (of_serv o, lst s') /\ forall k, In (ListenModel.Stop k) les <-> EC i e = EL (ListenModel.Stop k)).
    { intros E. unfold step_conn in E. destruct (ServerModel.step (con s i) e) as [o1 [c|]] eqn:E1; [|discriminate].
      destruct (ListenModel.run (lst s) (seen i (con s i) o1 c)) as [o2 l] eqn:E2. injection E as <- <-. exists (seen i (con s i) o1 c). rewrite of_serv_app, of_serv_OC, of_serv_OL. split; [exact E2|].
      intro k. split; [intro X; now apply seen_nostop in X|discriminate]. }
    assert (SKIP : ok s = (o, Some s') -> exists les, ListenModel.run (lst s) les = (of_serv o, lst s') /\ forall k, In (ListenModel.Stop k) les <-> EC i e = EL (ListenModel.Stop k)).
    { intro E. injection E as <- <-. exists []. split; [reflexivity|]. intro k. split; [intros []|discriminate]. }
    destruct (at_report (con s i) e).
    + destruct (ListenModel.cp (lst s) i); try exact SKIP; try exact CONN.
      destruct (ListenModel.step (lst s) (ListenModel.CWritten i)) as [o1 l] eqn:E1. intro E. injection E as <- <-. exists [ListenModel.CWritten i]. cbn [ListenModel.run]. rewrite E1, of_serv_OL, app_nil_r. split; [reflexivity|]. intro k. split; [intros [X|[]]; discriminate|discriminate].
    + destruct (ListenModel.cp (lst s) i); try exact SKIP; exact CONN.
Qed.
Lemma run_lrun es : forall s o s', run s es = (o, Some s') -> exists les, ListenModel.run (lst s) les = (of_serv o, lst s') /\ forall k, In (ListenModel.Stop k) les <-> In (EL (ListenModel.Stop k)) es.
Proof.
  induction es as [|e es IH]; intros s o s' E; cbn [run] in E.
  - injection E as <- <-. exists []. split; [reflexivity|]. intro k. cbn. tauto.
  - destruct (step s e) as [o1 [s1|]] eqn:E1; [|discriminate]. destruct (run s1 es) as [o2 s2] eqn:E2. injection E as <- ->.
    destruct (step_lrun _ _ _ _ E1) as (l1 & A1 & B1). destruct (IH s1 o2 s' E2) as (l2 & A2 & B2). exists (l1 ++ l2). rewrite ListenProofs.run_app, A1, A2, of_serv_app. split; [reflexivity|].
    intro k. rewrite in_app_iff, B1, B2. cbn. split; intros [X|X]; subst; auto.
Qed.
Lemma init_stage : ListenProofs.stage [] ListenModel.s_init.
Proof. split; [reflexivity|]. cbn. repeat split; try discriminate. intros i []. Qed.
Lemma stop_stage m es t s : run (g_init m) es = (t, Some s) -> one_stop es -> ListenProofs.Inv (of_serv t) (lst s) /\ ListenProofs.stage (of_serv t) (lst s) /\ (In (EL (ListenModel.Stop 0)) es -> ListenModel.sp (lst s) 0 <> ListenModel.SNew).
Proof.
  intros E O. destruct (run_lrun _ _ _ _ E) as (les & A & B). cbn [g_init lst] in A.
  assert (O' : forall k, In (ListenModel.Stop k) les -> k = 0) by (intros k H; apply O, B, H).
  destruct (ListenProofs.run_stage les [] ListenModel.s_init _ _ O' ListenProofs.init_inv init_stage A) as [I G]. split; [exact I|]. split; [exact G|].
  intro H. exact (ListenProofs.begun [] ListenModel.s_init les _ _ O' ListenProofs.init_inv init_stage (proj2 (B 0) H) A).
Qed.

(** ** the server ends when nothing more happens *)
Lemma quiet_serv s e : quiet s -> ListenSpec.internal (lst s) e -> of_server e = true -> ListenModel.step (lst s) e = ([], lst s).
Proof.
  intros Q I O. destruct (Q (EL e)) as (s' & E & S1 & _). { cbn. destruct e; try exact I; discriminate. }
  cbn [step] in E. unfold step_server in E. rewrite O in E. destruct (ListenModel.step (lst s) e) as [o l]. injection E as E1 <-. cbn in S1. subst l. destruct o; [reflexivity|discriminate].
Qed.
Lemma quiet_conn s i : quiet s -> ListenModel.cp (lst s) i = ListenModel.CServe -> ServerSpec.stuck (con s i).
Proof.
  intros Q C e I. destruct (Q (EC i e) I) as (s' & E & S1 & S2). cbn [step] in E. rewrite C in E. destruct (at_report (con s i) e).
  - cbn [ListenModel.step] in E. rewrite C in E. discriminate.
  - unfold step_conn in E. destruct (ServerModel.step (con s i) e) as [o [c|]]; [|discriminate]. destruct (ListenModel.run (lst s) (seen i (con s i) o c)) as [o' l]. injection E as E1 <-.
    specialize (S2 i). cbn in S2. rewrite upd_eq, Nat.eqb_refl in S2. subst c. destruct o; [reflexivity|discriminate].
Qed.
Lemma told_written m t s i : GI m t s -> quiet s -> In (OL (ListenModel.OTell i)) t -> ServerSpec.at_most_128 (of_conn i t) -> handled i t -> In (ListenModel.OWritten i) (of_serv t).
Proof.
  intros G Q T A H. destruct (gL _ _ _ G) as [les EL]. pose proof (ListenProofs.start_inv _ _ _ EL) as I. apply (ListenProofs.iWr _ _ I).
  assert (T' : In (ListenModel.OTell i) (of_serv t)) by now apply in_of_serv. split.
  - intro X. apply (ListenProofs.iNone _ _ I) in X. destruct (ListenProofs.iTell _ _ I i T') as (_ & Y & _). contradiction.
  - intro X. pose proof (quiet_conn _ _ Q X) as S. pose proof (gC _ _ _ G i) as R. pose proof (gTell _ _ _ G i T) as Ef.
    destruct (ServerEnd.stuck_cases _ _ _ R S) as [(P & W & K & WT & B)|[(K & W & O & WT & B & RP)|(F & _ & J)]].
    + apply (gEnd _ _ _ G) in K. rewrite X in K. destruct K; discriminate.
    + destruct RP as [[_ Y]|[P IF]]; [congruence|]. destruct (ServerModel.inFly (con s i)) as [|[id r] l] eqn:L; [now elim IF|].
      destruct (ServerEnd.fly_open m (con s i) (of_conn i t) id r R WT) as [Hs Hc]; [unfold ServerTrace.kresp; now rewrite K|rewrite L; now left|].
      apply in_flat_map in Hs. destruct Hs as (x & Hx & X1). destruct x; try contradiction. destruct X1 as [<-|[]]. apply in_of_conn in Hx. apply H in Hx. destruct Hx as (code & body & Hx).
      assert (ServerModel.comp (con s i) r0 = true); [|congruence]. apply (ServerTrace.ri_comp _ _ _ (ServerTrace.RI_reach _ _ _ R)). apply in_map_iff. exists (r0, code, body). split; [reflexivity|].
      apply in_flat_map. exists (ServerModel.OComp r0 code body). split; [now apply in_of_conn|now left].
    + destruct (ServerEnd.room _ _ _ R A F) as (B & _ & _ & P). destruct J as [J|[id J]]; [congruence|]. now apply P in J.
Qed.
Lemma quiet_end t s : ListenProofs.Inv t s -> ListenProofs.stage t s -> ListenModel.sp s 0 <> ListenModel.SNew -> (forall e, ListenSpec.internal s e -> of_server e = true -> ListenModel.step s e = ([], s)) ->
  (forall i, In (ListenModel.OTell i) t -> In (ListenModel.OWritten i) t) -> ListenModel.kp s = ListenModel.KEnd /\ ListenModel.sp s 0 = ListenModel.SRet.
Proof.
  intros I [A B] N Q T. assert (S0 : ListenModel.sp s 0 = ListenModel.SRet).
  { destruct (ListenModel.sp s 0) eqn:S0; try congruence.
    - exfalso. assert (W : ListenSpec.internal s (ListenModel.Stop 0)) by (cbn; congruence). apply Q in W; [|reflexivity]. cbn [ListenModel.step] in W. unfold ListenModel.step_stop in W. rewrite S0 in W. destruct B as (B & _). rewrite B in W.
      injection W as W. apply (f_equal (fun x => ListenModel.sp x 0)) in W. cbn in W. rewrite S0 in W. unfold ListenModel.upd in W. discriminate.
    - exfalso. assert (W : ListenSpec.internal s (ListenModel.Stop 0)) by (cbn; congruence). apply Q in W; [|reflexivity]. cbn [ListenModel.step] in W. unfold ListenModel.step_stop in W. rewrite S0 in W. discriminate. }
  split; [|exact S0]. rewrite S0 in B.
  assert (F : ListenModel.free s = true). { unfold ListenModel.free. destruct (ListenModel.lock s) as [k|] eqn:L; [|reflexivity]. apply (ListenProofs.iLock _ _ I) in L. destruct (Nat.eq_dec k 0) as [->|D]; [congruence|]. rewrite (A k D) in L. discriminate. }
  destruct (ListenModel.kp s) as [|i| |] eqn:K; [| | |reflexivity]; exfalso.
  - destruct B as [B|[B|[B|[B1 B2]]]]; try discriminate.
    + pose proof (Q ListenModel.TakeStop Logic.I eq_refl) as W. cbn [ListenModel.step] in W. rewrite K, B in W. injection W as W. apply (f_equal ListenModel.kp) in W. cbn in W. congruence.
    + destruct (ListenModel.conns s) as [|i l] eqn:C; [congruence|]. assert (Hi : In i (ListenModel.conns s)) by (rewrite C; now left).
      assert (W : In (ListenModel.OWritten i) t) by (apply T, B2; now left). apply (ListenProofs.iWr _ _ I) in W. apply (ListenProofs.iIn _ _ I) in Hi. rewrite K in Hi.
      destruct Hi as [Hi|[Hi|[Hi _]]]; [destruct W; congruence| |discriminate].
      pose proof (Q (ListenModel.TakeConn i) Logic.I eq_refl) as V. cbn [ListenModel.step] in V. rewrite K, Hi in V. injection V as V. apply (f_equal ListenModel.kp) in V. cbn in V. congruence.
  - pose proof (Q ListenModel.Ctl Logic.I eq_refl) as W. cbn [ListenModel.step] in W. unfold ListenModel.step_ctl in W. rewrite F, K in W. cbn [ListenModel.closing ListenModel.conns ListenModel.w_conns] in W.
    destruct (ListenModel.closing s && ListenModel.is_nil (ListenModel.del i (ListenModel.conns s))); [discriminate|]. injection W as W. apply (f_equal ListenModel.kp) in W. cbn in W. congruence.
  - pose proof (Q ListenModel.Ctl Logic.I eq_refl) as W. cbn [ListenModel.step] in W. unfold ListenModel.step_ctl in W. rewrite F, K in W.
    destruct (ListenModel.is_nil (ListenModel.conns s)); [apply (f_equal (fun x => length (fst x))) in W; cbn in W; rewrite app_length in W; cbn in W; lia|].
    apply (f_equal (fun x => ListenModel.kp (snd x))) in W. cbn in W. congruence.
Qed.
Lemma ends m es t s : run (g_init m) es = (t, Some s) -> one_stop es -> In (EL (ListenModel.Stop 0)) es -> quiet s ->
  (forall i, In (OL (ListenModel.OTell i)) t -> ServerSpec.at_most_128 (of_conn i t) /\ handled i t) -> In (OL ListenModel.OEnd) t /\ In (OL (ListenModel.OStopped 0)) t.
Proof.
  intros E O H Q P. pose proof (GI_run _ _ _ _ E) as G. destruct (stop_stage _ _ _ _ E O) as (I & ST & N). specialize (N H).
  destruct (quiet_end _ _ I ST N) as [K R].
  - intros e X Y. now apply quiet_serv.
  - intros i T. apply in_of_serv in T. destruct (P i T). now apply (told_written m t s i).
  - split; apply in_of_serv; [now apply (ListenProofs.iEnd _ _ I)|now apply (ListenProofs.iStp _ _ I)].
Qed.

(** ** it comes to that *)
Lemma work_eff s e o s' : ServerProofs.SI s -> ServerProofs.eff s e o s' -> ServerSpec.internal e -> (o = [] /\ s' = s) \/ ServerEnd.work s' < ServerEnd.work s.
Proof.
  intros I H Hi. destruct (ServerEnd.work_eff s e o s' I H Hi) as [X|X]; [|now right]. left. split; [|exact X].
  destruct H; try reflexivity; exfalso; try (now elim Hi); sfields.
  all: try (apply (f_equal ServerModel.rp) in X; cbn in X; congruence).
  all: try (apply (f_equal ServerModel.wp) in X; cbn in X; congruence).
  all: try (apply (f_equal ServerModel.kp) in X; cbn in X; congruence).
  all: try (apply (f_equal ServerModel.waits) in X; cbn in X; apply ServerEnd.take_nth_length in H0; rewrite X in H0; lia).
  all: try (apply (f_equal ServerModel.blk) in X; cbn in X; congruence).
  all: apply (f_equal ServerModel.kp) in X; cbn in X; rewrite H in X; injection X as X; apply (f_equal (@length _)) in X; cbn in X; lia.
Qed.
Definition extra (c : ListenModel.cpc) : nat := match c with ListenModel.CServe => 6 | _ => 0 end.
Definition load (s : st) (i : nat) : nat := extra (ListenModel.cp (lst s) i) + ServerEnd.work (con s i).
Definition grank (s : st) : nat :=
  ListenProofs.rank (lst s) + ListenProofs.sum (load s) (ListenModel.curId (lst s)) + match ListenModel.lp (lst s) with ListenModel.LGot => 7 + ServerEnd.work (con s (S (ListenModel.curId (lst s)))) | _ => 0 end.
Lemma sum_lt f g n : (forall i, 1 <= i <= n -> f i <= g i) -> ListenProofs.sum f n <= ListenProofs.sum g n.
Proof. induction n as [|n IH]; intro H; [reflexivity|]. cbn [ListenProofs.sum]. assert (f (S n) <= g (S n)) by (apply H; lia). assert (ListenProofs.sum f n <= ListenProofs.sum g n) by (apply IH; intros; apply H; lia). lia. Qed.
Lemma sum_one f g n i d : 1 <= i <= n -> (forall j, j <> i -> f j = g j) -> f i + d <= g i -> ListenProofs.sum f n + d <= ListenProofs.sum g n.
Proof.
  intros L N D. induction n as [|n IH]; [lia|]. cbn [ListenProofs.sum]. destruct (Nat.eq_dec i (S n)) as [->|X].
  - rewrite (ListenProofs.sum_ext f g n); [lia|]. intros j Hj. apply N. lia.
  - rewrite (N (S n)) by lia. assert (ListenProofs.sum f n + d <= ListenProofs.sum g n) by (apply IH; lia). lia.
Qed.
Lemma told_work o f i : ServerEnd.work (told o f i) = ServerEnd.work (f i).
Proof. destruct (told_eof o f i) as [-> | ->]; reflexivity. Qed.
Lemma served t l i : ListenProofs.Inv t l -> ListenModel.cp l i <> ListenModel.CNone -> 1 <= i <= ListenModel.curId l.
Proof. intros I H. destruct (le_lt_dec 1 i) as [L|L]; [destruct (le_lt_dec i (ListenModel.curId l)) as [L'|L']; [lia|]|]; exfalso; apply H, (ListenProofs.iNone _ _ I); lia. Qed.
Lemma grank_step m t s e o s' : GI m t s -> ListenProofs.stage (of_serv t) (lst s) -> internal s e -> step s e = (o, Some s') -> o <> [] \/ ~ same s s' -> grank s' < grank s.
Proof.
  intros G ST N E X. destruct (gL _ _ _ G) as [les EL]. pose proof (ListenProofs.start_inv _ _ _ EL) as I. apply step_geff in E.
  destruct E as [s e|s e o l O E|s i C K|s i e o c o' l C AR E1 E2].
  - exfalso. destruct X as [X|X]; [now apply X|]. apply X. now split.
  - assert (N' : ListenSpec.internal (lst s) e) by (destruct e; try exact N; discriminate).
    assert (Y : (o, l) <> ([], lst s)). { intro Z. injection Z as -> ->. destruct X as [X|X]; [now apply X|]. apply X. split; [reflexivity|]. intro i. reflexivity. }
    pose proof (ListenProofs.rank_step _ _ _ _ _ I ST N' E Y) as RK.
    assert (LOAD : forall cur, ListenModel.cp l = ListenModel.cp (lst s) -> ListenProofs.sum (load (mkG l (told o (con s)))) cur = ListenProofs.sum (load s) cur).
    { intros cur Z. apply ListenProofs.sum_ext. intros j _. unfold load. cbn [lst con]. now rewrite told_work, Z. }
    unfold grank. cbn [lst con]. rewrite told_work.
    destruct e as [b| |k| |i| |i|i|i|i]; try discriminate; try contradiction; cbn [ListenModel.step] in E; unfold ListenModel.step_listen, ListenModel.step_stop, ListenModel.step_ctl, ListenModel.ok in E.
    + (* Listen *) destruct (ListenModel.free (lst s)); [|congruence]. destruct (ListenModel.lp (lst s)) eqn:Lp; try congruence.
      * injection E as <- <-. rewrite LOAD by reflexivity. cbn [ListenModel.lp ListenModel.w_lp ListenModel.curId]. destruct (ListenModel.closing (lst s)); lia.
      * destruct (ListenModel.closing (lst s)); injection E as <- <-; [rewrite LOAD by reflexivity; cbn [ListenModel.lp ListenModel.w_lp ListenModel.curId]; lia|].
        cbn [ListenModel.lp ListenModel.curId ListenProofs.sum]. unfold load at 1. cbn [lst con ListenModel.cp]. rewrite told_work, upd_eq, Nat.eqb_refl. cbn [extra].
        rewrite (ListenProofs.sum_ext _ (load s)); [lia|]. intros j Hj. unfold load. cbn [lst con ListenModel.cp]. rewrite told_work, upd_eq. destruct (Nat.eqb_spec j (S (ListenModel.curId (lst s)))); [lia|reflexivity].
    + destruct (ListenModel.sp (lst s) k); try congruence.
      * destruct (ListenModel.free (lst s)); [|congruence]. injection E as <- <-. rewrite LOAD by reflexivity. cbn [ListenModel.lp ListenModel.curId ListenModel.w_lock ListenModel.w_closing ListenModel.w_sp]. lia.
      * destruct (ListenModel.stopq (lst s)); [congruence|]. injection E as <- <-. rewrite LOAD by reflexivity. cbn [ListenModel.lp ListenModel.curId ListenModel.w_lock ListenModel.w_stopq ListenModel.w_sp]. lia.
      * injection E as <- <-. rewrite LOAD by reflexivity. cbn [ListenModel.lp ListenModel.curId ListenModel.w_lclosed ListenModel.w_sp]. lia.
    + destruct (ListenModel.kp (lst s)); try congruence. destruct (ListenModel.stopq (lst s)); [|congruence]. injection E as <- <-. rewrite LOAD by reflexivity. cbn [ListenModel.lp ListenModel.curId ListenModel.w_kp ListenModel.w_stopq]. lia.
    + destruct (ListenModel.kp (lst s)); try congruence. destruct (ListenModel.cp (lst s) i) eqn:Ci; try congruence; injection E as <- <-; cbn [ListenModel.lp ListenModel.curId ListenModel.w_kp ListenModel.w_cp];
        (rewrite (ListenProofs.sum_ext _ (load s)); [lia|]; intros j _; unfold load; cbn [lst con ListenModel.cp ListenModel.w_kp ListenModel.w_cp]; rewrite told_work, upd_eq; destruct (Nat.eqb_spec j i) as [->|]; [rewrite Ci|]; reflexivity).
    + destruct (ListenModel.free (lst s)); [|congruence]. destruct (ListenModel.kp (lst s)) as [|i| |]; try congruence.
      * cbn [ListenModel.closing ListenModel.conns ListenModel.w_conns] in E. destruct (ListenModel.closing (lst s) && ListenModel.is_nil (ListenModel.del i (ListenModel.conns (lst s)))); injection E as <- <-; rewrite LOAD by reflexivity; cbn [ListenModel.lp ListenModel.curId ListenModel.w_kp ListenModel.w_conns]; lia.
      * destruct (ListenModel.is_nil (ListenModel.conns (lst s))); injection E as <- <-; rewrite LOAD by reflexivity; cbn [ListenModel.lp ListenModel.curId ListenModel.w_kp]; lia.
  - assert (L : 1 <= i <= ListenModel.curId (lst s)) by (apply (served _ _ _ I); congruence).
    unfold grank. cbn [lst con ListenModel.curId ListenModel.lp ListenModel.w_cp]. unfold ListenProofs.rank. cbn [ListenModel.curId ListenModel.cp ListenModel.kp ListenModel.stopq ListenModel.sp ListenModel.lp ListenModel.w_cp].
    pose proof (ListenProofs.sum_upd (lst s) i ListenModel.CFirst _ L) as Z. rewrite C in Z. cbn [ListenProofs.ph] in Z.
    assert (Y : ListenProofs.sum (load (mkG (ListenModel.w_cp (lst s) i ListenModel.CFirst) (con s))) (ListenModel.curId (lst s)) + 6 <= ListenProofs.sum (load s) (ListenModel.curId (lst s))).
    { apply (sum_one _ _ _ i); [exact L| |]; unfold load; cbn [lst con ListenModel.cp ListenModel.w_cp].
      - intros j J. rewrite upd_eq. apply Nat.eqb_neq in J. now rewrite J.
      - rewrite upd_eq, Nat.eqb_refl, C. cbn [extra]. lia. }
    lia.
  - assert (L : 1 <= i <= ListenModel.curId (lst s)) by now apply (served _ _ _ I).
    pose proof (ServerProofs.SI_reach _ _ _ (gC _ _ _ G i)) as SIi. pose proof (ServerProofs.step_eff _ _ _ _ SIi E1) as EF.
    assert (LS : exists f, ListenModel.lp l = ListenModel.lp (lst s) /\ ListenModel.curId l = ListenModel.curId (lst s) /\ ListenProofs.rank l <= ListenProofs.rank (lst s) /\ (forall j, extra (ListenModel.cp l j) = extra (ListenModel.cp (lst s) j)) /\ (f = tt)).
    { exists tt. assert (GEN : forall evs l0 o0 l1, ListenModel.run l0 evs = (o0, l1) -> ListenModel.curId l0 = ListenModel.curId (lst s) -> forallb (fun e => match e with ListenModel.CRead _ | ListenModel.CEof _ => true | ListenModel.CGo j => Nat.eqb j i | _ => false end) evs = true ->
        ListenModel.lp l1 = ListenModel.lp l0 /\ ListenModel.curId l1 = ListenModel.curId l0 /\ ListenProofs.rank l1 <= ListenProofs.rank l0 /\ forall j, extra (ListenModel.cp l1 j) = extra (ListenModel.cp l0 j)).
      { clear -L. induction evs as [|e evs IH]; intros l0 o0 l1 E C F; cbn [ListenModel.run] in E; [injection E as <- <-; repeat split; lia|].
        destruct (ListenModel.step l0 e) as [o1 l2] eqn:E1. destruct (ListenModel.run l2 evs) as [o2 l3] eqn:E2. injection E as <- <-. cbn in F. apply andb_prop in F. destruct F as [F1 F2].
        assert (Z : ListenModel.lp l2 = ListenModel.lp l0 /\ ListenModel.curId l2 = ListenModel.curId l0 /\ ListenProofs.rank l2 <= ListenProofs.rank l0 /\ forall j, extra (ListenModel.cp l2 j) = extra (ListenModel.cp l0 j)).
        { destruct e as [b| |k| |x| |x|x|x|x]; try discriminate; cbn [ListenModel.step] in E1; unfold ListenModel.ok in E1.
          - destruct (ListenModel.rd l0 x); injection E1 as <- <-; repeat split; lia.
          - injection E1 as <- <-. repeat split. unfold ListenProofs.rank. cbn. lia.
          - apply Nat.eqb_eq in F1. subst x. destruct (ListenModel.cp l0 i) eqn:Ci; try (injection E1 as <- <-; repeat split; lia). destruct (ListenModel.rd l0 i); injection E1 as <- <-; [repeat split; lia|].
            split; [reflexivity|]. split; [reflexivity|]. split.
            + unfold ListenProofs.rank. cbn [ListenModel.curId ListenModel.cp ListenModel.kp ListenModel.stopq ListenModel.sp ListenModel.lp ListenModel.w_cp]. rewrite <- C in L. pose proof (ListenProofs.sum_upd l0 i ListenModel.CSecond _ L) as Z. rewrite Ci in Z. cbn [ListenProofs.ph] in Z. lia.
            + intro j. cbn [ListenModel.cp ListenModel.w_cp]. rewrite upd_eq. destruct (Nat.eqb_spec j i) as [->|]; [now rewrite Ci|reflexivity]. }
        destruct Z as (Z1 & Z2 & Z3 & Z4). destruct (IH l2 o2 l3 E2) as (Y1 & Y2 & Y3 & Y4); [congruence|exact F2|]. repeat split; try congruence; try lia. }
      destruct (GEN _ _ _ _ E2 eq_refl) as (Y1 & Y2 & Y3 & Y4); [|now repeat split].
      unfold seen. rewrite !forallb_app. destruct (existsb is_req o); destruct (negb (reader_done (con s i)) && reader_done c); destruct (existsb is_closed o); cbn; rewrite ?Nat.eqb_refl; reflexivity. }
    destruct LS as (_ & Y1 & Y2 & Y3 & Y4 & _).
    destruct (work_eff _ _ _ _ SIi EF N) as [[-> ->]|W].
    + exfalso. assert (SE : seen i (con s i) [] (con s i) = []) by (unfold seen; cbn; now destruct (reader_done (con s i))). rewrite SE in E2. injection E2 as <- <-.
      destruct X as [X|X]; [now apply X|]. apply X. split; [reflexivity|]. intro j. cbn. rewrite upd_eq. now destruct (Nat.eqb_spec j i) as [->|].
    + unfold grank. cbn [lst con]. rewrite Y1, Y2.
      assert (Z : ListenProofs.sum (load (mkG l (ListenModel.upd (con s) i c))) (ListenModel.curId (lst s)) + 1 <= ListenProofs.sum (load s) (ListenModel.curId (lst s))).
      { apply (sum_one _ _ _ i); [exact L| |]; unfold load; cbn [lst con].
        - intros j J. rewrite upd_eq, Y4. apply Nat.eqb_neq in J. now rewrite J.
        - rewrite upd_eq, Nat.eqb_refl, Y4. lia. }
      assert (NX : ListenModel.upd (con s) i c (S (ListenModel.curId (lst s))) = con s (S (ListenModel.curId (lst s)))) by (rewrite upd_eq; destruct (Nat.eqb_spec (S (ListenModel.curId (lst s))) i); [lia|reflexivity]).
      rewrite NX. destruct (ListenModel.lp (lst s)); lia.
Qed.
Lemma stage_step m t s e o s' : GI m t s -> ListenProofs.stage (of_serv t) (lst s) -> internal s e -> step s e = (o, Some s') -> ListenProofs.stage (of_serv (t ++ o)) (lst s').
Proof.
  intros G ST N E. destruct (gL _ _ _ G) as [les EL]. pose proof (ListenProofs.start_inv _ _ _ EL) as I. destruct (step_lrun _ _ _ _ E) as (l1 & A1 & B1). rewrite of_serv_app.
  apply (ListenProofs.run_stage l1 _ (lst s) _ _); [|exact I|exact ST|exact A1]. intros k H. apply B1 in H. subst e. cbn in N. destruct ST as [S1 _]. destruct (Nat.eq_dec k 0) as [->|D]; [reflexivity|]. now rewrite (S1 k D) in N.
Qed.
Lemma settles m es : forall t s, GI m t s -> ListenProofs.stage (of_serv t) (lst s) -> productive s es -> length es <= grank s.
Proof.
  induction es as [|e es IH]; intros t s G ST P; cbn [length]; [lia|]. cbn [productive] in P. destruct P as (N & o & s' & E & X & P).
  pose proof (grank_step _ _ _ _ _ _ G ST N E X). specialize (IH (t ++ o) s' (GI_step _ _ _ _ _ _ G E) (stage_step _ _ _ _ _ _ G ST N E) P). lia.
Qed.
