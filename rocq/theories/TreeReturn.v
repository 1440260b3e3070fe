(** A call of Cancel that is not disturbed comes to its end. *)
From Coq Require Import ZArith List Bool Arith Lia.
Import ListNotations.
From Verif Require Import RequestModel.
From Verif Require Import TreeModel TreeSpec TreeProofs TreeBirth TreeCancel TreeHistory CauseSpec CauseProps TreeTidy.
Open Scope Z_scope.

(** ** children that were given back with Done *)
Definition early (tr : list obs) (d : nat) : Prop := exists a b, tr = a ++ ODone d :: b /\ forall j p, ~ In (OChildRet j p d) a.
Record given_back (tr : list obs) (s : sys) : Prop := {
  v_job : forall k p d, jb s k = Some (JChild p d) -> early tr d \/ par (cx s d) = Some p;
  v_ret : forall k p d, In (OChildRet k p d) tr -> early tr d \/ par (cx s d) = Some p \/ (exists g, In (FD1 p d) (stk s g)) \/ ~ In (CX d) (reg s p);
  v_done : forall d, In (ODone d) tr -> early tr d \/ par (cx s d) = None \/ exists g, In (FD0 d) (stk s g) }.
Lemma early_app tr o d : early tr d -> early (tr ++ o) d.
Proof. intros (a & b & -> & N). exists a, (b ++ o). split; [now rewrite <- app_assoc|exact N]. Qed.
Lemma early_done tr d : In (ODone d) tr -> (forall j p, ~ In (OChildRet j p d) tr) -> early tr d.
Proof. intros I N. apply in_split in I. destruct I as (a & b & ->). exists a, b. split; [reflexivity|]. intros j p I. apply (N j p). apply in_app_iff. now left. Qed.
Lemma eff_par_d s k f o fs s1 d : eff s k f o fs s1 -> (par (cx s1 d) = par (cx s d) /\ cborn (cx s1 d) = cborn (cx s d)) \/ exists p, f = FD0 d /\ par (cx s d) = Some p /\ fs = [FD1 p d] /\ par (cx s1 d) = None /\ cborn (cx s1 d) = true.
Proof.
  destruct 1; auto; cbn; auto; try (unfold fupd; destruct (Nat.eqb_spec d c) as [->|]; cbn; now auto).
  - left. destruct (Nat.eq_dec d c) as [->|N]; [rewrite fupd_same; cbn; split; apply register_same|now rewrite fupd_other, register_other by exact N].
  - unfold fupd; destruct (Nat.eqb_spec d d0) as [->|]; cbn; [right; eauto 9|now left].
  - left. destruct (Nat.eq_dec d p) as [->|N]; [split; apply unregister_same|now rewrite unregister_other by exact N].
  - left. destruct (Nat.eq_dec d c) as [->|N]; [split; apply unregister_same|now rewrite unregister_other by exact N].
Qed.
Lemma move_given_back tr s o s' : move s o s' -> good tr s -> births tr s -> kids tr s -> causes tr s -> tidy s -> given_back tr s -> given_back (tr ++ o) s'.
Proof.
  intros M G B K W T U. destruct M as [|k f rest o fs s1 E H|k j o s' E J R|k j f o s1 J C|o s' F].
  - now rewrite app_nil_r.
  - destruct (eff_stk _ _ _ _ _ _ H) as [ES EJ]. assert (TOP : In f (stk s k)) by (rewrite E; now left).
    assert (NO : forall b, In b o -> match b with OSet _ _ | ODeliver _ _ => True | _ => False end) by (destruct H; cbn; intuition subst; trivial).
    split; cbn [cx set_stk jb].
    + intros g p d J. rewrite EJ in J. destruct (v_job _ _ U _ _ _ J) as [X|X]; [left; now apply early_app|]. destruct (eff_par_d _ _ _ _ _ _ d H) as [[Q _]|(p' & -> & Q & _)]; [right; congruence|].
      left. apply early_app. destruct (h_job _ _ K _ _ _ J) as (_ & _ & N). apply early_done; [|exact N]. destruct (h_d0 _ _ K _ _ TOP) as [D|[D _]]; [exact D|congruence].
    + intros g p d I. apply in_app_iff in I. destruct I as [I|I]; [|now apply NO in I].
      assert (NA : f <> FA1 p (CX d)). { intros ->. destruct (pre_job _ _ _ _ (CX d) B TOP eq_refl) as (_ & c & J). apply (h_job _ _ K) in J. destruct J as (_ & _ & J). now apply J in I. }
      destruct (v_ret _ _ U _ _ _ I) as [X|[X|[(h & X)|X]]]; [left; now apply early_app| | |].
      * destruct (eff_par_d _ _ _ _ _ _ d H) as [[Q _]|(p' & -> & Q & -> & _)]; [right; left; congruence|]. right. right. left. exists k. cbn. rewrite fupd_same. assert (p' = p) as -> by congruence. now left.
      * destruct (in_kept _ _ _ _ s1 fs _ _ E ES X) as [[<- ->]|Q]; [|right; right; left; eauto]. right. right. right. inversion H; subst. intro Q. change (In (CX d) (reg (unregister s p (CX d)) p)) in Q. now apply unregister_nd in Q; [|apply T].
      * right. right. right. intro Q. change (In (CX d) (reg s1 p)) in Q. destruct (proj1 (eff_reg_inv _ _ _ _ _ _ p (CX d) H) Q); contradiction.
    + intros d I. apply in_app_iff in I. destruct I as [I|I]; [|now apply NO in I]. destruct (v_done _ _ U _ I) as [X|X]; [left; now apply early_app|]. right. destruct (eff_par_d _ _ _ _ _ _ d H) as [[Q _]|(p' & -> & Q & -> & Q' & _)]; [|now left].
      destruct X as [X|(g & X)]; [left; congruence|]. destruct (in_kept _ _ _ _ s1 fs _ _ E ES X) as [[<- ->]|Q2]; [|right; eauto]. left. inversion H; subst; cbn in *; [now rewrite fupd_same|congruence].
  - destruct (ret_rq _ _ _ _ _ R) as (ES & EJ & EX & D & P). split; rewrite ?ES, ?EJ, ?EX; unfold reg; rewrite ?EX.
    + intros g p d. unfold fupd. destruct (Nat.eqb_spec g k) as [->|]; [discriminate|]. intro Q. destruct (v_job _ _ U _ _ _ Q) as [X|X]; [left; now apply early_app|now right].
    + intros g p d I. apply in_app_iff in I. destruct I as [I|I].
      * destruct (v_ret _ _ U _ _ _ I) as [X|X]; [left; now apply early_app|now right].
      * destruct j; cbn in R; injection R as <- <-; cbn in I; try (now destruct I as [I|[]]); try contradiction; destruct I as [I|[]]. injection I as <- <- <-. destruct (v_job _ _ U _ _ _ J) as [X|X]; [left; now apply early_app|auto].
    + intros d I. apply in_app_iff in I. destruct I as [I|I]; [destruct (v_done _ _ U _ I) as [X|X]; [left; now apply early_app|now right]|]. destruct j; cbn in R; injection R as <- <-; cbn in I; now intuition.
  - destruct (calls_stk _ _ _ _ _ _ C) as (ES & EJ & HF & P & D). pose proof (q_jb _ _ G _ J) as E0.
    assert (KEEP : forall g h, In h (stk s g) -> In h (fupd (stk s1) k [f] g)) by (intros g h; unfold fupd; rewrite ES; destruct (Nat.eqb_spec g k) as [->|]; [rewrite E0; easy|trivial]).
    assert (CX : forall c, cborn (cx s c) = true -> reg s1 c = reg s c /\ cx s1 c = cx s c) by (intros c X; destruct C; auto; unfold reg; cbn; unfold fupd; destruct (Nat.eqb_spec c d) as [->|]; auto; congruence).
    assert (RG : forall c, reg s1 c = reg s c) by (intros c; destruct C; auto; unfold reg; cbn; unfold fupd; destruct (Nat.eqb_spec c d) as [->|]; auto).
    split; cbn [cx set_stk set_jb stk jb].
    + intros g p d. rewrite EJ. unfold fupd. destruct (Nat.eqb_spec g k) as [->|]; intro Q.
      * destruct C; try discriminate. injection Q as <- <-. right. cbn. now rewrite fupd_same.
      * destruct (v_job _ _ U _ _ _ Q) as [X|X]; [left; now apply early_app|]. right. destruct (CX d) as [_ ->]; [|exact X]. now apply (h_job _ _ K) in Q.
    + intros g p d I. apply in_app_iff in I. destruct I as [I|I]; [|destruct C; cbn in I; destruct I as [I|[]]; discriminate].
      destruct (v_ret _ _ U _ _ _ I) as [X|[X|[(h & X)|X]]]; [left; now apply early_app| | |].
      * right. left. destruct (CX d) as [_ ->]; [|exact X]. now apply (h_born _ _ K) in I.
      * right. right. left. exists h. now apply KEEP.
      * right. right. right. unfold reg in *. cbn. specialize (RG p). unfold reg in RG. now rewrite RG.
    + intros d I. apply in_app_iff in I. destruct I as [I|I].
      * destruct (v_done _ _ U _ I) as [X|[X|(g & X)]]; [left; now apply early_app| |right; right; exists g; now apply KEEP].
        assert (Q : par (cx s1 d) = par (cx s d) \/ cborn (cx s d) = false) by (destruct C; auto; cbn; unfold fupd; destruct (Nat.eqb_spec d d0) as [->|]; auto). destruct Q as [Q|Q]; [right; left; congruence|].
        left. apply early_app, early_done; [exact I|]. intros j0 p0 I'. apply (h_born _ _ K) in I'. congruence.
      * right. right. exists k. rewrite fupd_same. destruct C; cbn in I; destruct I as [I|[]]; try discriminate. injection I as <-. now left.
  - assert (ES : stk s' = stk s /\ jb s' = jb s) by (now destruct F). destruct ES as [ES EJ].
    assert (CX : forall c, cborn (cx s c) = true -> cx s' c = cx s c) by (intros c X; destruct F; auto; cbn; unfold fupd; [destruct (Nat.eqb_spec c c0) as [->|]|destruct (Nat.eqb_spec c x) as [->|]]; auto; congruence).
    assert (RG : forall c, reg s' c = reg s c) by (intro c; destruct F; auto; unfold reg; cbn; unfold fupd; [destruct (Nat.eqb_spec c c0) as [->|]|destruct (Nat.eqb_spec c x) as [->|]]; auto).
    split; rewrite ?ES, ?EJ.
    + intros g p d Q. destruct (v_job _ _ U _ _ _ Q) as [X|X]; [left; now apply early_app|]. right. rewrite CX; [exact X|]. now apply (h_job _ _ K) in Q.
    + intros g p d I. apply in_app_iff in I. destruct I as [I|I]; [|destruct F; cbn in I; intuition discriminate]. rewrite RG.
      destruct (v_ret _ _ U _ _ _ I) as [X|[X|X]]; [left; now apply early_app| |auto]. right. left. rewrite CX; [exact X|]. now apply (h_born _ _ K) in I.
    + intros d I. apply in_app_iff in I. destruct I as [I|I]; [|destruct F; cbn in I; intuition discriminate]. destruct (v_done _ _ U _ I) as [X|[X|X]]; [left; now apply early_app| |auto]. right. left. destruct F; trivial; cbn; unfold fupd; [destruct (Nat.eqb_spec d c) as [->|]|destruct (Nat.eqb_spec d x) as [->|]]; auto.
Qed.
Lemma run_given_back es tr s : run init es = (tr, s) -> given_back tr s.
Proof.
  intro R. enough (allt tr s /\ given_back tr s) by tauto. revert es tr s R. apply run_ind.
  - split; [|split; cbn; easy]. split; [apply good_init|apply births_init|apply kids_init| |apply tidy_init]. split; cbn; easy.
  - intros tr s o s' [[G B K W T] U] M. split; [|eapply move_given_back; eauto]. split; [eapply move_good|eapply move_births|eapply move_kids|eapply move_causes|eapply move_tidy]; eauto.
Qed.

(** ** one goroutine runs alone *)
Definition nokid (s : sys) : Prop := forall c d, ~ In (CX d) (reg s c).
Definition steps (k : nat) (s : sys) (t : list obs) (s' : sys) : Prop := exists n, run s (repeat (EGo k) n) = (t, s').
Lemma run_app s a b : run s (a ++ b) = let (t, s1) := run s a in let (t', s2) := run s1 b in (t ++ t', s2).
Proof.
  revert s. induction a as [|e a IH]; intro s; cbn; [now destruct (run s b)|]. destruct (step s e) as [o s1]. rewrite IH. destruct (run s1 a) as [t s2]. destruct (run s2 b). now rewrite app_assoc.
Qed.
Lemma steps_trans k s t s1 t' s2 : steps k s t s1 -> steps k s1 t' s2 -> steps k s (t ++ t') s2.
Proof. intros (n & R) (m & R'). exists (n + m)%nat. rewrite repeat_app, run_app, R, R'. reflexivity. Qed.

Section Alone.
Variable k : nat.
Variables rc rr : nat -> nat.
Variable n : nat.
Hypothesis rc_n : forall c, (rc c < n)%nat.
Hypothesis rr_n : forall r, (rr r < n)%nat.

Record alone (tr : list obs) (s : sys) : Prop := {
  al_reach : exists es, run init es = (tr, s);
  al_stk : forall g, g <> k -> stk s g = [];
  al_kid : nokid s;
  al_own : forall r c, own (rq s r) = Some c -> (rc c < rr r)%nat;
  al_hc : forall r x, hc (rq s r) = Some x -> (rr r < rc x)%nat }.
(** from s to s', the stack being [st'] at the end *)
Record big (tr : list obs) (s : sys) (st' : list frame) (t : list obs) (s' : sys) : Prop := {
  bg_steps : steps k s t s';
  bg_al : alone (tr ++ t) s';
  bg_stk : stk s' k = st';
  bg_jb : jb s' = jb s;
  bg_reg : forall c y, In y (reg s' c) -> In y (reg s c);
  bg_own : forall r, own (rq s' r) = own (rq s r);
  bg_dead : forall c, dead (cx s c) = true -> dead (cx s' c) = true }.
Definition reaches (tr : list obs) (s : sys) (st' : list frame) (Q : sys -> Prop) : Prop := exists t s', big tr s st' t s' /\ Q s'.
Lemma big_refl tr s st' : alone tr s -> stk s k = st' -> big tr s st' [] s.
Proof. intros A0 E. split; trivial; [now exists 0%nat|now rewrite app_nil_r]. Qed.
Lemma big_trans tr s st1 t1 s1 st2 t2 s2 : big tr s st1 t1 s1 -> big (tr ++ t1) s1 st2 t2 s2 -> big tr s st2 (t1 ++ t2) s2.
Proof.
  intros [S1 A1 K1 J1 R1 O1 D1] [S2 A2 K2 J2 R2 O2 D2]. split; trivial; [eapply steps_trans; eauto|now rewrite app_assoc|congruence|auto|congruence|auto].
Qed.
Lemma one tr s f rest o fs s1 : alone tr s -> stk s k = f :: rest -> maker f = false \/ s1 = s -> go s k f rest = (o, set_stk s1 k (fs ++ rest)) -> eff s k f o fs s1 ->
  big tr s (fs ++ rest) o (set_stk s1 k (fs ++ rest)).
Proof.
  intros [(es & R) A1 A2 A3 A4] E M G H. destruct (eff_stk _ _ _ _ _ _ H) as [ES EJ].
  assert (RG : forall c y, In y (reg s1 c) -> In y (reg s c)) by (intros c y I; destruct (proj1 (eff_reg_inv _ _ _ _ _ _ c y H) I) as [Q| ->]; [exact Q|]; destruct M as [M| ->]; [discriminate|exact I]).
  assert (OW : forall r, own (rq s1 r) = own (rq s r)) by (intro r; destruct (eff_flags _ _ _ _ _ _ r H) as (_ & _ & [Q|(c & -> & _)]); [exact Q|]; destruct M as [M| ->]; [discriminate|reflexivity]).
  assert (ST : step s (EGo k) = (o, set_stk s1 k (fs ++ rest))) by (cbn [step]; now rewrite E).
  split; trivial.
  - exists 1%nat. cbn [repeat run]. rewrite ST. now rewrite app_nil_r.
  - split.
    + exists (es ++ [EGo k]). rewrite run_snoc, R, ST. reflexivity.
    + intros g N. cbn. rewrite fupd_other by exact N. rewrite ES. now apply A1.
    + intros c d I. apply (A2 c d). now apply RG.
    + intros r c. cbn. rewrite OW. apply A3.
    + intros r x. cbn. rewrite (proj1 (eff_rq _ _ _ _ _ _ r H)). apply A4.
  - cbn. now rewrite fupd_same.
  - intros c D. cbn. destruct (eff_dead _ _ _ _ _ _ c H) as [Q|(_ & _ & _ & _ & Q)]; congruence.
Qed.
Lemma alone_all tr s : alone tr s -> allt tr s.
Proof. intros [(es & R) _ _ _ _]. eapply run_tidy; eauto. Qed.
Lemma alone_mu tr s f rest c : alone tr s -> stk s k = f :: rest -> (forall x, f <> FA1 c x) -> mu (cx s c) = false.
Proof.
  intros A0 E M. destruct (mu (cx s c)) eqn:X; trivial. pose proof (alone_all _ _ A0) as [G B K W T]. destruct (t_mu _ T _ X) as (g & x & I).
  destruct (Nat.eq_dec g k) as [->|N]; [|rewrite (al_stk _ _ A0 g N) in I; destruct I]. destruct (b_makes _ _ B _ _ I eq_refl) as [E' _]. rewrite E in E'. injection E' as -> _. now elim (M x).
Qed.
Lemma alone_lock tr s f rest r : alone tr s -> stk s k = f :: rest -> cnt r (f :: rest) = 0%nat -> lock (rq s r) = None.
Proof.
  intros A0 E C. pose proof (q_locks _ _ (y_good _ _ (alone_all _ _ A0))) as L. destruct (lock (rq s r)) as [g|] eqn:X; trivial. pose proof (L r g) as Q. rewrite X in Q. cbn in Q. rewrite Nat.eqb_refl in Q.
  destruct (Nat.eq_dec g k) as [->|N]; [rewrite E in Q; congruence|rewrite (al_stk _ _ A0 g N) in Q; discriminate].
Qed.

(** what is on the stack below *)
Definition below (m : nat) (rest : list frame) : Prop := forall q, (m <= rr q)%nat -> cnt q rest = 0%nat.
Definition req_ends (r : nat) : Prop := forall tr s rest, alone tr s -> stk s k = FLk r (Fail RcCanceled) :: rest -> below (rr r) rest ->
  reaches tr s rest (fun s' => forall c, ~ In (CR r) (reg s' c)).
Definition ctx_ends (x : nat) : Prop := forall tr s rest w, alone tr s -> stk s k = FCas w x :: rest -> below (rc x) rest ->
  reaches tr s rest (fun s' => dead (cx s' x) = true /\ (dead (cx s x) = false -> reg s' x = [])).

Lemma reaches_step tr s f rest o fs s1 st' (Q : sys -> Prop) : alone tr s -> stk s k = f :: rest -> maker f = false -> go s k f rest = (o, set_stk s1 k (fs ++ rest)) -> eff s k f o fs s1 ->
  (alone (tr ++ o) (set_stk s1 k (fs ++ rest)) -> stk (set_stk s1 k (fs ++ rest)) k = fs ++ rest -> reaches (tr ++ o) (set_stk s1 k (fs ++ rest)) st' Q) -> reaches tr s st' Q.
Proof.
  intros A0 E M G H C. pose proof (one _ _ _ _ _ _ _ A0 E (or_introl M) G H) as B1. destruct (C (bg_al _ _ _ _ _ B1) (bg_stk _ _ _ _ _ B1)) as (t & s' & B2 & Y). exists (o ++ t), s'. split; [eapply big_trans; eauto|exact Y].
Qed.
Lemma reaches_bind tr s st1 st2 (P Q : sys -> Prop) : reaches tr s st1 P -> (forall t s1, big tr s st1 t s1 -> P s1 -> reaches (tr ++ t) s1 st2 Q) -> reaches tr s st2 Q.
Proof. intros (t & s1 & B1 & Y) C. destruct (C _ _ B1 Y) as (t2 & s2 & B2 & Y2). exists (t ++ t2), s2. split; [eapply big_trans; eauto|exact Y2]. Qed.
Lemma reaches_end tr s st' (Q : sys -> Prop) : alone tr s -> stk s k = st' -> Q s -> reaches tr s st' Q.
Proof. intros A0 E Y. exists [], s. split; [now apply big_refl|exact Y]. Qed.
Lemma at_end tr s r rest (a : answer) : alone tr s -> stk s k = FUl r a :: rest -> state (rq s r) = RsPerformed -> reaches tr s rest (fun s' => forall c, ~ In (CR r) (reg s' c)).
Proof.
  intros A0 E P. eapply (reaches_step _ _ _ _ [] []); eauto; [reflexivity|apply e_ul|]. intros A1 E1. apply reaches_end; trivial. intros c. apply (t_over _ (y_tidy _ _ (alone_all _ _ A1))). left. cbn. now rewrite fupd_same.
Qed.
Lemma unregister_state s c x r : state (rq (unregister s c x) r) = state (rq s r).
Proof. now rewrite unregister_rq. Qed.
Lemma from_b2 tr s r a rest : alone tr s -> stk s k = FB2 r a :: rest -> reaches tr s rest (fun s' => forall c, ~ In (CR r) (reg s' c)).
Proof.
  intros A0 E. assert (TAIL : forall tr s, alone tr s -> stk s k = FDl r a :: rest -> reaches tr s rest (fun s' => forall c, ~ In (CR r) (reg s' c))).
  { clear. intros tr s A0 E. eapply (reaches_step _ _ _ _ [ODeliver r (code_of a)] [FPf r _]); eauto; [reflexivity|apply e_dl|]. intros A1 E1.
    eapply (reaches_step _ _ _ _ [] [FUl r _]); eauto; [reflexivity|apply e_pf|]. intros A2 E2. eapply at_end; eauto. cbn. now rewrite fupd_same. }
  destruct (own (rq s r)) as [c|] eqn:O.
  - pose proof (alone_mu _ _ _ _ c A0 E ltac:(discriminate)) as M. apply (reaches_step _ _ _ _ [] [FDl r a] (unregister s c (CR r)) _ _ A0 E eq_refl); [cbn [go]; rewrite O, M; reflexivity|now apply e_b2b|]. intros A1 E1. apply TAIL; trivial.
  - apply (reaches_step _ _ _ _ [] [FDl r a] s _ _ A0 E eq_refl); [cbn [go]; rewrite O; reflexivity|now apply e_b2a|]. intros A1 E1. apply TAIL; trivial.
Qed.
Lemma below_le m m' rest : (m <= m')%nat -> below m rest -> below m' rest.
Proof. intros L B q Q. apply B. lia. Qed.
Lemma cnt_lk r q a rest : cnt q (FLk r a :: rest) = cnt q rest.
Proof. reflexivity. Qed.
Lemma req_ends_if r : (forall x, (rr r < rc x)%nat -> ctx_ends x) -> req_ends r.
Proof.
  intros HX tr s rest A0 E BL.
  assert (L : lock (rq s r) = None). { eapply alone_lock; eauto. rewrite cnt_lk. apply BL. lia. }
  apply (reaches_step _ _ _ _ [] [FCk r (Fail RcCanceled)] (set_lock s r (Some k)) _ _ A0 E eq_refl); [cbn [go]; now rewrite L|now apply e_lk|]. intros A1 E1. set (s1 := set_stk _ _ _) in *. rewrite app_nil_r in *.
  assert (SS : state (rq s1 r) = state (rq s r)) by (cbn; now rewrite fupd_same).
  pose proof (y_good _ _ (alone_all _ _ A0)) as G. pose proof (q_free _ _ G _ L) as NP. pose proof (q_rng _ _ G r) as KN.
  destruct (Z.eq_dec (state (rq s r)) RsPerformed) as [P|NF].
  - assert (MY : may s1 r (Fail RcCanceled) = false) by (unfold may; rewrite SS, P; reflexivity).
    apply (reaches_step _ _ _ _ [] [FUl r (Fail RcCanceled)] s1 _ _ A1 E1 eq_refl); [cbn [go]; now rewrite MY|now apply e_ckb|]. intros A2 E2. eapply at_end; [exact A2|exact E2|]. cbn [rq set_stk]. congruence.
  - assert (MY : may s1 r (Fail RcCanceled) = true). { unfold may. rewrite SS. destruct KN as [Q|[Q|[Q|[Q|Q]]]]; rewrite Q; trivial; contradiction. }
    apply (reaches_step _ _ _ _ [] [FPr r (Fail RcCanceled)] s1 _ _ A1 E1 eq_refl); [cbn [go]; now rewrite MY|now apply e_cka|]. intros A2 E2. set (s2 := set_stk s1 _ _) in *. rewrite app_nil_r in *.
    apply (reaches_step _ _ _ _ [] [FB1 r (Fail RcCanceled)] (set_state s2 r RsPrepared) _ _ A2 E2 eq_refl); [reflexivity|apply e_pr|]. intros A3 E3. set (s3 := set_stk (set_state s2 r RsPrepared) _ _) in *. rewrite app_nil_r in *.
    destruct (hc (rq s3 r)) as [x|] eqn:HC.
    + apply (reaches_step _ _ _ _ [] [FCas CxCanceled x; FB2 r (Fail RcCanceled)] s3 _ _ A3 E3 eq_refl); [cbn [go]; now rewrite HC|now apply e_b1b|]. intros A4 E4. set (s4 := set_stk s3 _ _) in *. rewrite app_nil_r in *.
      pose proof (al_hc _ _ A3 _ _ HC) as RK. eapply reaches_bind.
      * apply (HX x RK _ _ _ _ A4 E4). intros q Q. cbn [cnt hold]. destruct (Nat.eqb_spec r q) as [->|N]; [lia|]. rewrite BL by lia. reflexivity.
      * intros t s5 B5 _. eapply from_b2; [apply B5|apply B5].
    + apply (reaches_step _ _ _ _ [] [FB2 r (Fail RcCanceled)] s3 _ _ A3 E3 eq_refl); [cbn [go]; now rewrite HC|now apply e_b1a|]. intros A4 E4. eapply from_b2; eauto.
Qed.
Lemma list_ends x l : (forall r, (rc x < rr r)%nat -> req_ends r) -> forall tr s rest, alone tr s -> stk s k = FCall x l :: rest -> below (rc x) rest ->
  (forall y, In y l -> exists r, y = CR r /\ own (rq s r) = Some x) -> reaches tr s (FCall x [] :: rest) (fun s' => forall y c, In y l -> ~ In y (reg s' c)).
Proof.
  intro HR. induction l as [|y l IH]; intros tr s rest A0 E BL OW; [apply reaches_end; trivial; intros y c []|].
  destruct (OW y (or_introl eq_refl)) as (r & -> & O). pose proof (al_own _ _ A0 _ _ O) as RK.
  apply (reaches_step _ _ _ _ [] [FLk r (Fail RcCanceled); FCall x l] s _ _ A0 E eq_refl); [reflexivity|apply (e_call1 _ _ _ (CR r))|]. intros A1 E1. rewrite app_nil_r in *.
  eapply reaches_bind; [apply (HR r RK _ _ _ A1 E1)|].
  - intros q Q. cbn. apply BL. lia.
  - intros t s2 B2 P2. eapply reaches_bind; [apply (IH _ _ rest (bg_al _ _ _ _ _ B2) (bg_stk _ _ _ _ _ B2) BL)|].
    + intros y I. destruct (OW y (or_intror I)) as (q & -> & O'). exists q. split; [reflexivity|]. rewrite (bg_own _ _ _ _ _ B2). exact O'.
    + intros t' s3 B3 P3. apply reaches_end; [apply B3|apply B3|]. intros y c [<-|I]; [|now apply P3]. intro I. apply (bg_reg _ _ _ _ _ B3) in I. now apply P2 in I.
Qed.
Lemma reg_nil s x : (forall y, ~ In y (reg s x)) -> reg s x = [].
Proof. destruct (reg s x) as [|y l]; trivial. intro H. destruct (H y). now left. Qed.
Lemma l1_ends tr s x rest : alone tr s -> stk s k = FL1 x :: rest -> reg s x = [] -> reaches tr s rest (fun s' => reg s' x = []).
Proof.
  intros A0 E R. unfold reg in R. apply app_eq_nil in R. destruct R as [R1 R2].
  apply (reaches_step _ _ _ _ [] [FL2 x] s _ _ A0 E eq_refl); [cbn [go]; now rewrite R2|now apply e_l1a|]. intros A1 E1. rewrite app_nil_r in *.
  apply (reaches_step _ _ _ _ [] [] (set_stk s k ([FL2 x] ++ rest)) _ _ A1 E1 eq_refl); [cbn [go cx set_stk]; now rewrite R1|now apply e_l2a|]. intros A2 E2. apply reaches_end; trivial. unfold reg. cbn. now rewrite R1, R2.
Qed.
Lemma coll_ends x : (forall r, (rc x < rr r)%nat -> req_ends r) -> forall tr s rest, alone tr s -> stk s k = FColl x :: rest -> below (rc x) rest -> reaches tr s rest (fun s' => reg s' x = []).
Proof.
  intros HR tr s rest A0 E BL. pose proof (alone_mu _ _ _ _ x A0 E ltac:(discriminate)) as M.
  apply (reaches_step _ _ _ _ [] [FCall x (reg s x)] s _ _ A0 E eq_refl); [cbn [go]; now rewrite M|now apply e_coll|]. intros A1 E1. rewrite app_nil_r in *.
  eapply reaches_bind; [apply (list_ends x (reg s x) HR _ _ rest A1 E1 BL)|].
  - intros [r|d] I; [|now apply (al_kid _ _ A0) in I]. exists r. split; [reflexivity|]. cbn. now apply (t_own _ (y_tidy _ _ (alone_all _ _ A0))).
  - intros t s2 B2 P2. assert (R0 : reg s2 x = []) by (apply reg_nil; intros y I; apply (P2 y x); trivial; now apply (bg_reg _ _ _ _ _ B2) in I).
    apply (reaches_step _ _ _ _ [] [FL1 x] s2 _ _ (bg_al _ _ _ _ _ B2) (bg_stk _ _ _ _ _ B2) eq_refl); [reflexivity|apply e_call0|]. intros A3 E3. apply l1_ends; trivial.
Qed.
Lemma ctx_ends_if x : (forall r, (rc x < rr r)%nat -> req_ends r) -> ctx_ends x.
Proof.
  intros HR tr s rest w A0 E BL. destruct (dead (cx s x)) eqn:D.
  - apply (reaches_step _ _ _ _ [] [] s _ _ A0 E eq_refl); [cbn [go]; now rewrite D|now apply e_cas_no|]. intros A1 E1. apply reaches_end; trivial. split; [exact D|discriminate].
  - apply (reaches_step _ _ _ _ [OSet k x] [FL1 x] (set_dead s x w) _ _ A0 E eq_refl); [cbn [go]; now rewrite D|now apply e_cas|]. intros A1 E1. set (s1 := set_stk _ _ _) in *.
    apply (reaches_bind _ _ rest rest (fun s' => reg s' x = [])); [|intros t s2 B2 P2; apply reaches_end; [apply B2|apply B2|split; trivial; apply (bg_dead _ _ _ _ _ B2); cbn; now rewrite fupd_same]].
    destruct (mp (cx s1 x)) as [|y l] eqn:MP; [destruct (sl (cx s1 x)) as [|y l] eqn:SL|].
    + apply l1_ends; trivial. unfold reg. now rewrite SL, MP.
    + apply (reaches_step _ _ _ _ [] [FL2 x] s1 _ _ A1 E1 eq_refl); [cbn [go]; now rewrite MP|now apply e_l1a|]. intros A2 E2. set (s2 := set_stk s1 _ _) in *.
      apply (reaches_step _ _ _ _ [] [FColl x] s2 _ _ A2 E2 eq_refl); [cbn [go]; change (cx s2) with (cx s1); now rewrite SL|apply e_l2b; change (cx s2) with (cx s1); now rewrite SL|]. intros A3 E3. now apply coll_ends.
    + apply (reaches_step _ _ _ _ [] [FColl x] s1 _ _ A1 E1 eq_refl); [cbn [go]; now rewrite MP|apply e_l1b; now rewrite MP|]. intros A2 E2. now apply coll_ends.
Qed.
Lemma all_end : forall m, (forall r, (n - rr r < m)%nat -> req_ends r) /\ (forall x, (n - rc x < m)%nat -> ctx_ends x).
Proof.
  induction m as [|m [IR IX]]; [split; intros; lia|]. split.
  - intros r L. apply req_ends_if. intros x Q. apply IX. specialize (rc_n x). specialize (rr_n r). lia.
  - intros x L. apply ctx_ends_if. intros r Q. apply IR. specialize (rc_n x). specialize (rr_n r). lia.
Qed.
Lemma ctx_always x : ctx_ends x.
Proof. apply (proj2 (all_end (S n))). lia. Qed.
Lemma req_always r : req_ends r.
Proof. apply (proj1 (all_end (S n))). lia. Qed.
(** any answer, by a goroutine that does nothing else *)
Lemma respond_always tr s r a : alone tr s -> stk s k = [FLk r a] -> reaches tr s [] (fun _ => True).
Proof.
  intros A0 E.
  assert (DROP : forall tr s, alone tr s -> stk s k = [FUl r a] -> reaches tr s [] (fun _ => True)).
  { clear. intros tr s A0 E. apply (reaches_step _ _ _ _ [] [] (set_lock s r None) _ _ A0 E eq_refl); [reflexivity|apply e_ul|]. intros A1 E1. apply reaches_end; trivial. }
  assert (B2 : forall tr s, alone tr s -> stk s k = [FB2 r a] -> reaches tr s [] (fun _ => True)).
  { clear. intros tr s A0 E. destruct (from_b2 _ _ _ _ _ A0 E) as (t & s' & Y & _). exists t, s'. now split. }
  assert (L : lock (rq s r) = None) by (eapply alone_lock; eauto).
  apply (reaches_step _ _ _ _ [] [FCk r a] (set_lock s r (Some k)) _ _ A0 E eq_refl); [cbn [go]; now rewrite L|now apply e_lk|]. intros A1 E1. set (s1 := set_stk _ _ _) in *. rewrite app_nil_r in *.
  destruct (may s1 r a) eqn:MY.
  - apply (reaches_step _ _ _ _ [] [FPr r a] s1 _ _ A1 E1 eq_refl); [cbn [go]; now rewrite MY|now apply e_cka|]. intros A2 E2. set (s2 := set_stk s1 _ _) in *. rewrite app_nil_r in *.
    apply (reaches_step _ _ _ _ [] [FB1 r a] (set_state s2 r RsPrepared) _ _ A2 E2 eq_refl); [reflexivity|apply e_pr|]. intros A3 E3. set (s3 := set_stk (set_state s2 r RsPrepared) _ _) in *. rewrite app_nil_r in *.
    destruct (hc (rq s3 r)) as [x|] eqn:HC.
    + pose proof (al_hc _ _ A3 _ _ HC) as RK. assert (BL : forall b, hold r b = 1%nat -> (forall q, q <> r -> hold q b = 0%nat) -> below (rc x) [b]).
      { intros b H1 H2 q Q. cbn. rewrite H2; [reflexivity|]. intros ->. lia. }
      destruct (Z.eq_dec (code_of a) RcCanceled) as [CC|CC]; [|destruct (Z.eq_dec (code_of a) RcTimeout) as [CT|CT]].
      * apply (reaches_step _ _ _ _ [] [FCas CxCanceled x; FB2 r a] s3 _ _ A3 E3 eq_refl); [cbn [go]; rewrite HC, CC; reflexivity|now apply e_b1b|]. intros A4 E4. rewrite app_nil_r in *.
        eapply reaches_bind; [apply (ctx_always x _ _ [FB2 r a] _ A4 E4), BL; cbn; [now rewrite Nat.eqb_refl|intros q N; destruct (Nat.eqb_spec r q); congruence]|]. intros t s5 B5 _. apply B2; apply B5.
      * apply (reaches_step _ _ _ _ [] [FCas CxTimeout x; FR1 r a] s3 _ _ A3 E3 eq_refl); [cbn [go]; rewrite HC, CT; reflexivity|now apply e_b1c|]. intros A4 E4. rewrite app_nil_r in *.
        eapply reaches_bind; [apply (ctx_always x _ _ [FR1 r a] _ A4 E4), BL; cbn; [now rewrite Nat.eqb_refl|intros q N; destruct (Nat.eqb_spec r q); congruence]|]. intros t s5 B5 _.
        apply (reaches_step _ _ _ _ [] [FR2 r a] (set_state s5 r RsPending) _ _ (bg_al _ _ _ _ _ B5) (bg_stk _ _ _ _ _ B5) eq_refl); [reflexivity|apply e_r1|]. intros A6 E6.
        apply (reaches_step _ _ _ _ [] [FUl r a] (set_state (set_stk (set_state s5 r RsPending) k ([FR2 r a] ++ [])) r RsInFly) _ _ A6 E6 eq_refl); [cbn; now rewrite fupd_same|apply e_r2a; cbn; now rewrite fupd_same|]. intros A7 E7. apply DROP; trivial.
      * apply (reaches_step _ _ _ _ [] [FD0 x; FB2 r a] s3 _ _ A3 E3 eq_refl); [cbn [go]; rewrite HC; apply Z.eqb_neq in CC, CT; now rewrite CC, CT|now apply e_b1d|]. intros A4 E4.
        assert (PX : par (cx s3 x) = None) by (now apply (h_par _ _ (y_kids _ _ (alone_all _ _ A3))) in HC).
        apply (reaches_step _ _ _ _ [] [] (set_stk s3 k ([FD0 x; FB2 r a] ++ [])) _ _ A4 E4 eq_refl); [cbn [go]; change (par (cx (set_stk s3 k ([FD0 x; FB2 r a] ++ [])) x)) with (par (cx s3 x)); now rewrite PX|now apply e_d0b|]. intros A5 E5. apply B2; trivial.
    + apply (reaches_step _ _ _ _ [] [FB2 r a] s3 _ _ A3 E3 eq_refl); [cbn [go]; now rewrite HC|now apply e_b1a|]. intros A4 E4. apply B2; trivial.
  - apply (reaches_step _ _ _ _ [] [FUl r a] s1 _ _ A1 E1 eq_refl); [cbn [go]; now rewrite MY|now apply e_ckb|]. intros A2 E2. apply DROP; trivial.
Qed.
End Alone.
