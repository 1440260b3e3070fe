(** Calls that run at the same time do not keep each other from ending. *)
From Coq Require Import ZArith List Bool Arith Lia.
Import ListNotations.
From Verif Require Import RequestModel.
From Verif Require Import TreeModel TreeSpec TreeProofs TreeBirth TreeCancel TreeHistory TreeProps CauseSpec CauseProps TreeTidy ReturnSpec TreeReturn TreeOrder.
Open Scope Z_scope.

Definition sched (s : sys) (t : list obs) (s' : sys) : Prop := exists l, Forall goes l /\ run s l = (t, s').
Lemma sched_trans s t s1 t' s2 : sched s t s1 -> sched s1 t' s2 -> sched s (t ++ t') s2.
Proof. intros (l & F & R) (l' & F' & R'). exists (l ++ l'). split; [now apply Forall_app|]. now rewrite run_app, R, R'. Qed.
Lemma sched_one k s o s' : step s (EGo k) = (o, s') -> sched s o s'.
Proof. intro H. exists [EGo k]. split; [constructor; [now exists k|constructor]|]. cbn [run]. rewrite H. now rewrite app_nil_r. Qed.

Section Live.
Variables rc rr : nat -> nat.
Variable n : nat.
Hypothesis rc_n : forall c, (rc c < n)%nat.
Hypothesis rr_n : forall r, (rr r < n)%nat.

Definition rkx (x : canc) : nat := match x with CR r => rr r | CX c => rc c end.
Definition rk (f : frame) : nat := rkx (subj f).
Record still (tr : list obs) (s : sys) : Prop := {
  l_reach : exists es, run init es = (tr, s);
  l_made : forall g f, In f (stk s g) -> maker f = false;
  l_kid : nokid s;
  l_ord : ordered tr rc rr }.
Definition popped (m : nat) (a b : list frame) : Prop := exists y, a = y ++ b /\ Forall (fun f => m <= rk f)%nat y.
Lemma popped_refl m a : popped m a a.
Proof. exists []. now split. Qed.
Lemma popped_trans m a b c : popped m a b -> popped m b c -> popped m a c.
Proof. intros (y & -> & F) (z & -> & F'). exists (y ++ z). split; [now rewrite app_assoc|now apply Forall_app]. Qed.
Lemma popped_le m m' a b : (m <= m')%nat -> popped m' a b -> popped m a b.
Proof. intros L (y & -> & F). exists y. split; [reflexivity|]. eapply Forall_impl; [|exact F]. cbn. intros; lia. Qed.
Lemma popped_top m f l b : popped m (f :: l) b -> (rk f < m)%nat -> b = f :: l.
Proof. intros ([|h y] & E & F) L; [now symmetry|]. injection E as -> _. inversion F; subst. lia. Qed.
(** goroutine g gets from its stack to [st'], the others return from calls of rank m and higher at most *)
Record big (m : nat) (tr : list obs) (s : sys) (g : nat) (st' : list frame) (t : list obs) (s' : sys) : Prop := {
  bg_sched : sched s t s';
  bg_still : still (tr ++ t) s';
  bg_stk : stk s' g = st';
  bg_oth : forall h, h <> g -> popped m (stk s h) (stk s' h);
  bg_jb : jb s' = jb s;
  bg_reg : forall c y, In y (reg s' c) -> In y (reg s c) }.
Definition reaches (m : nat) (tr : list obs) (s : sys) (g : nat) (st' : list frame) (Q : sys -> Prop) : Prop := exists t s', big m tr s g st' t s' /\ Q s'.
Lemma big_trans m tr s g st1 t1 s1 st2 t2 s2 : big m tr s g st1 t1 s1 -> big m (tr ++ t1) s1 g st2 t2 s2 -> big m tr s g st2 (t1 ++ t2) s2.
Proof.
  intros [S1 A1 K1 P1 J1 R1] [S2 A2 K2 P2 J2 R2]. split; trivial; [eapply sched_trans; eauto|now rewrite app_assoc|intros h N; eapply popped_trans; eauto|congruence|auto].
Qed.
Lemma big_le m m' tr s g st' t s' : (m <= m')%nat -> big m' tr s g st' t s' -> big m tr s g st' t s'.
Proof. intros L [S1 A1 K1 P1 J1 R1]. split; trivial. intros h N. eapply popped_le; eauto. Qed.
Lemma reaches_le m m' tr s g st' Q : (m <= m')%nat -> reaches m' tr s g st' Q -> reaches m tr s g st' Q.
Proof. intros L (t & s' & B & Y). exists t, s'. split; [eapply big_le; eauto|exact Y]. Qed.
Lemma still_all tr s : still tr s -> allt tr s.
Proof. intros [(es & R) _ _ _]. eapply run_tidy; eauto. Qed.
Lemma still_order tr s : still tr s -> orderly tr s.
Proof. intros [(es & R) _ _ _]. eapply run_orderly; eauto. Qed.
Lemma still_mu tr s c : still tr s -> mu (cx s c) = false.
Proof. intro A0. destruct (mu (cx s c)) eqn:X; trivial. destruct (t_mu _ (y_tidy _ _ (still_all _ _ A0)) _ X) as (g & x & I). apply (l_made _ _ A0) in I. discriminate. Qed.
Lemma eff_maker s k f o fs s1 f' : eff s k f o fs s1 -> maker f = false -> In f' fs -> maker f' = false.
Proof. destruct 1; cbn; intros M I; intuition subst; trivial; try (destruct x; reflexivity); try discriminate; destruct (may s r a); reflexivity. Qed.
Lemma one m tr s g f rest o fs s1 : still tr s -> stk s g = f :: rest -> go s g f rest = (o, set_stk s1 g (fs ++ rest)) -> eff s g f o fs s1 ->
  big m tr s g (fs ++ rest) o (set_stk s1 g (fs ++ rest)).
Proof.
  intros A0 E G H. pose proof A0 as [(es & R) A1 A2 A3]. destruct (eff_stk _ _ _ _ _ _ H) as [ES EJ]. assert (M : maker f = false) by (apply (A1 g); rewrite E; now left).
  assert (RG : forall c y, In y (reg s1 c) -> In y (reg s c)) by (intros c y I; destruct (proj1 (eff_reg_inv _ _ _ _ _ _ c y H) I) as [Q| ->]; [exact Q|discriminate]).
  assert (ST : step s (EGo g) = (o, set_stk s1 g (fs ++ rest))) by (cbn [step]; now rewrite E).
  split; trivial.
  - now apply sched_one in ST.
  - split.
    + exists (es ++ [EGo g]). rewrite run_snoc, R, ST. reflexivity.
    + intros h f' I. destruct (in_after _ _ _ _ _ _ _ _ E ES I) as [[-> I']|[I' _]]; [eapply eff_maker; eauto|eauto].
    + intros c d I. apply (A2 c d). now apply RG.
    + apply ordered_same; trivial. intros b I. destruct (eff_shows _ _ _ _ _ _ _ H I) as [(c & ->)|(r & a & _ & ->)]; exact Logic.I.
  - cbn. now rewrite fupd_same.
  - intros h N. cbn. rewrite fupd_other, ES by exact N. apply popped_refl.
Qed.
Lemma reaches_step m tr s g f rest o fs s1 st' (Q : sys -> Prop) : still tr s -> stk s g = f :: rest -> go s g f rest = (o, set_stk s1 g (fs ++ rest)) -> eff s g f o fs s1 ->
  (still (tr ++ o) (set_stk s1 g (fs ++ rest)) -> stk (set_stk s1 g (fs ++ rest)) g = fs ++ rest -> reaches m (tr ++ o) (set_stk s1 g (fs ++ rest)) g st' Q) -> reaches m tr s g st' Q.
Proof.
  intros A0 E G H C. pose proof (one m _ _ _ _ _ _ _ _ A0 E G H) as B1. destruct (C (bg_still _ _ _ _ _ _ _ B1) (bg_stk _ _ _ _ _ _ _ B1)) as (t & s' & B2 & Y). exists (o ++ t), s'. split; [eapply big_trans; eauto|exact Y].
Qed.
Lemma reaches_bind m tr s g st1 st2 (P Q : sys -> Prop) : reaches m tr s g st1 P -> (forall t s1, big m tr s g st1 t s1 -> P s1 -> reaches m (tr ++ t) s1 g st2 Q) -> reaches m tr s g st2 Q.
Proof. intros (t & s1 & B1 & Y) C. destruct (C _ _ B1 Y) as (t2 & s2 & B2 & Y2). exists (t ++ t2), s2. split; [eapply big_trans; eauto|exact Y2]. Qed.
Lemma reaches_end m tr s g st' (Q : sys -> Prop) : still tr s -> stk s g = st' -> Q s -> reaches m tr s g st' Q.
Proof. intros A0 E Y. exists [], s. split; [|exact Y]. split; trivial; [exists []; now split|now rewrite app_nil_r|intros; apply popped_refl]. Qed.
Lemma under_rank tr x f : ordered tr rc rr -> under tr x f -> (rk f < rkx x)%nat.
Proof. intros (O1 & O2 & O3). destruct f; cbn; try contradiction; destruct x; cbn; try contradiction; try (intros (k & I)); eauto. Qed.
Lemma chain_ranks tr l : ordered tr rc rr -> chain tr l -> forall a f b h, l = a ++ f :: b -> In h a -> (rk f < rk h)%nat.
Proof.
  intros O. induction l as [|x l IH]; intros C a f b h E I; [destruct a; discriminate|]. destruct a as [|y a]; [destruct I|]. injection E as <- ->. destruct C as [U C]. destruct I as [<-|I]; [|eapply IH; eauto].
  destruct a as [|z a]; [cbn in U; now apply under_rank in U|]. cbn in U. apply under_rank in U; [|exact O]. specialize (IH C (z :: a) f b z eq_refl (or_introl eq_refl)). unfold rk in *. lia.
Qed.
Lemma still_ranks tr s g a f b h : still tr s -> stk s g = a ++ f :: b -> In h a -> (rk f < rk h)%nat.
Proof. intros A0 E. eapply chain_ranks; [apply A0|apply (o_chain _ _ (still_order _ _ A0) g)|exact E]. Qed.

(** what holds when a call has returned *)
Definition gone (f : frame) (s' : sys) : Prop :=
  match f with FLk r (Fail c) => c = RcCanceled -> forall d, ~ In (CR r) (reg s' d) | _ => True end.
Definition pops (f : frame) : Prop := forall tr s g rest, still tr s -> stk s g = f :: rest -> reaches (rk f) tr s g rest (gone f).
Definition pops_all (m : nat) : Prop := forall f, (m <= rk f)%nat -> maker f = false -> pops f.

Section Level.
Variable m : nat.
Hypothesis IH : pops_all (S m).
Lemma pop_high tr s g f rest : still tr s -> stk s g = f :: rest -> (m < rk f)%nat -> reaches (S m) tr s g rest (gone f).
Proof. intros A0 E L. apply reaches_le with (rk f); [lia|]. apply IH; trivial. apply (l_made _ _ A0 g). rewrite E. now left. Qed.
(** ** the steps of a completion, with the lock *)
Section Request.
Variable r : nat.
Hypothesis rm : rr r = m.
Definition without (a : answer) (s' : sys) : Prop := a = Fail RcCanceled -> forall d, ~ In (CR r) (reg s' d).
Lemma pop_ul tr s g a rest : still tr s -> stk s g = FUl r a :: rest -> (a = Fail RcCanceled -> state (rq s r) = RsPerformed) -> reaches (S m) tr s g rest (without a).
Proof.
  intros A0 E P. apply (reaches_step _ _ _ _ _ _ [] [] (set_lock s r None) _ _ A0 E eq_refl (e_ul _ _ _ _)). intros A1 E1. apply reaches_end; trivial. intros Q d. apply (t_over _ (y_tidy _ _ (still_all _ _ A1))). left. cbn. rewrite fupd_same. cbn. auto.
Qed.
Lemma pop_pf tr s g a rest : still tr s -> stk s g = FPf r a :: rest -> reaches (S m) tr s g rest (without a).
Proof. intros A0 E. apply (reaches_step _ _ _ _ _ _ [] [FUl r a] (set_state s r RsPerformed) _ _ A0 E eq_refl (e_pf _ _ _ _)). intros A1 E1. eapply pop_ul; eauto. intros _. cbn. now rewrite fupd_same. Qed.
Lemma pop_dl tr s g a rest : still tr s -> stk s g = FDl r a :: rest -> reaches (S m) tr s g rest (without a).
Proof. intros A0 E. apply (reaches_step _ _ _ _ _ _ [ODeliver r (code_of a)] [FPf r a] s _ _ A0 E eq_refl (e_dl _ _ _ _)). intros A1 E1. eapply pop_pf; eauto. Qed.
Lemma pop_b2 tr s g a rest : still tr s -> stk s g = FB2 r a :: rest -> reaches (S m) tr s g rest (without a).
Proof.
  intros A0 E. destruct (own (rq s r)) as [c|] eqn:O.
  - pose proof (still_mu _ _ c A0) as M. apply (reaches_step _ _ _ _ _ _ [] [FDl r a] (unregister s c (CR r)) _ _ A0 E); [cbn [go]; rewrite O, M; reflexivity|now apply e_b2b|]. intros A1 E1. eapply pop_dl; eauto.
  - apply (reaches_step _ _ _ _ _ _ [] [FDl r a] s _ _ A0 E); [cbn [go]; rewrite O; reflexivity|now apply e_b2a|]. intros A1 E1. eapply pop_dl; eauto.
Qed.
Lemma timeout_not : Fail RcCanceled = Fail RcTimeout -> False.
Proof. discriminate. Qed.
Lemma pop_r2 tr s g a rest : still tr s -> stk s g = FR2 r a :: rest -> reaches (S m) tr s g rest (without a).
Proof.
  intros A0 E. assert (N : a = Fail RcCanceled -> False).
  { intros ->. assert (X : code_of (Fail RcCanceled) = RcTimeout); [|discriminate X]. apply (q_rt _ _ (y_good _ _ (still_all _ _ A0)) r g). right. rewrite E. now left. }
  destruct (Z.eq_dec (state (rq s r)) RsPending) as [P|P].
  - apply (reaches_step _ _ _ _ _ _ [] [FUl r a] (set_state s r RsInFly) _ _ A0 E); [cbn [go]; rewrite P; reflexivity|now apply e_r2a|]. intros A1 E1. eapply pop_ul; eauto. intro Q. now apply N in Q.
  - apply (reaches_step _ _ _ _ _ _ [] [FUl r a] s _ _ A0 E); [cbn [go]; apply Z.eqb_neq in P; rewrite P; reflexivity|now apply e_r2b|]. intros A1 E1. eapply pop_ul; eauto. intro Q. now apply N in Q.
Qed.
Lemma pop_r1 tr s g a rest : still tr s -> stk s g = FR1 r a :: rest -> reaches (S m) tr s g rest (without a).
Proof. intros A0 E. apply (reaches_step _ _ _ _ _ _ [] [FR2 r a] (set_state s r RsPending) _ _ A0 E eq_refl (e_r1 _ _ _ _)). intros A1 E1. eapply pop_r2; eauto. Qed.
Lemma pop_b1 tr s g a rest : still tr s -> stk s g = FB1 r a :: rest -> reaches (S m) tr s g rest (without a).
Proof.
  intros A0 E. destruct (hc (rq s r)) as [x|] eqn:HC.
  - assert (RK : (m < rc x)%nat). { rewrite <- rm. destruct (l_ord _ _ A0) as (_ & _ & O). apply O. now apply (h_hc _ _ (y_kids _ _ (still_all _ _ A0))). }
    destruct (Z.eq_dec (code_of a) RcCanceled) as [CC|CC]; [|destruct (Z.eq_dec (code_of a) RcTimeout) as [CT|CT]].
    + apply (reaches_step _ _ _ _ _ _ [] [FCas CxCanceled x; FB2 r a] s _ _ A0 E); [cbn [go]; rewrite HC, CC; reflexivity|now apply e_b1b|]. intros A4 E4.
      eapply reaches_bind; [apply (pop_high _ _ _ _ _ A4 E4 RK)|]. intros t s5 B5 _. eapply pop_b2; apply B5.
    + apply (reaches_step _ _ _ _ _ _ [] [FCas CxTimeout x; FR1 r a] s _ _ A0 E); [cbn [go]; rewrite HC, CT; reflexivity|now apply e_b1c|]. intros A4 E4.
      eapply reaches_bind; [apply (pop_high _ _ _ _ _ A4 E4 RK)|]. intros t s5 B5 _. eapply pop_r1; apply B5.
    + apply (reaches_step _ _ _ _ _ _ [] [FD0 x; FB2 r a] s _ _ A0 E); [cbn [go]; rewrite HC; apply Z.eqb_neq in CC, CT; now rewrite CC, CT|now apply e_b1d|]. intros A4 E4.
      eapply reaches_bind; [apply (pop_high _ _ _ _ _ A4 E4 RK)|]. intros t s5 B5 _. eapply pop_b2; apply B5.
  - apply (reaches_step _ _ _ _ _ _ [] [FB2 r a] s _ _ A0 E); [cbn [go]; now rewrite HC|now apply e_b1a|]. intros A4 E4. eapply pop_b2; eauto.
Qed.
Lemma pop_pr tr s g a rest : still tr s -> stk s g = FPr r a :: rest -> reaches (S m) tr s g rest (without a).
Proof. intros A0 E. apply (reaches_step _ _ _ _ _ _ [] [FB1 r a] (set_state s r RsPrepared) _ _ A0 E eq_refl (e_pr _ _ _ _)). intros A1 E1. eapply pop_b1; eauto. Qed.
Lemma pop_ck tr s g a rest : still tr s -> stk s g = FCk r a :: rest -> reaches (S m) tr s g rest (without a).
Proof.
  intros A0 E. destruct (may s r a) eqn:MY.
  - apply (reaches_step _ _ _ _ _ _ [] [FPr r a] s _ _ A0 E); [cbn [go]; now rewrite MY|now apply e_cka|]. intros A1 E1. eapply pop_pr; eauto.
  - apply (reaches_step _ _ _ _ _ _ [] [FUl r a] s _ _ A0 E); [cbn [go]; now rewrite MY|now apply e_ckb|]. intros A1 E1. eapply pop_ul; eauto. cbn. intros ->.
    pose proof (y_good _ _ (still_all _ _ A0)) as G. assert (NP : fits (state (rq s r)) 0). { apply (q_st _ _ G r g (FCk r (Fail RcCanceled))); [rewrite E; now left|cbn; now rewrite Nat.eqb_refl]. }
    unfold may in MY. destruct (q_rng _ _ G r) as [Q|[Q|[Q|[Q|Q]]]]; rewrite Q in MY; try discriminate MY; [|exact Q]. rewrite Q in NP. now elim NP.
Qed.
Lemma pop_held tr s g f rest : still tr s -> stk s g = f :: rest -> hold r f = 1%nat -> reaches (S m) tr s g rest (fun _ => True).
Proof.
  intros A0 E H. assert (X : exists a, f = FCk r a \/ f = FPr r a \/ f = FB1 r a \/ f = FR1 r a \/ f = FR2 r a \/ f = FB2 r a \/ f = FDl r a \/ f = FPf r a \/ f = FUl r a).
  { destruct f; cbn in H; try discriminate; (destruct (Nat.eqb_spec r0 r) as [->|]; [|discriminate]); exists a; intuition. }
  destruct X as (a & X). assert (FIN : reaches (S m) tr s g rest (without a) -> reaches (S m) tr s g rest (fun _ => True)) by (intros (t & s' & B & _); exists t, s'; now split).
  destruct X as [->|[->|[->|[->|[->|[->|[->|[->| ->]]]]]]]]; [apply FIN; now apply pop_ck|apply FIN; now apply pop_pr|apply FIN; now apply pop_b1|apply FIN; now apply pop_r1|apply FIN; now apply pop_r2|apply FIN; now apply pop_b2|apply FIN; now apply pop_dl|apply FIN; now apply pop_pf|].
  apply (reaches_step _ _ _ _ _ _ [] [] (set_lock s r None) _ _ A0 E eq_refl (e_ul _ _ _ _)). intros A1 E1. now apply reaches_end.
Qed.
Lemma cnt_split l : cnt r l <> 0%nat -> exists y h z, l = y ++ h :: z /\ hold r h = 1%nat.
Proof.
  induction l as [|f l IHl]; cbn; [easy|]. intro C. destruct (hold r f) as [|[|j]] eqn:Q.
  - destruct IHl as (y & h & z & -> & X); [exact C|]. exists (f :: y), h, z. now split.
  - exists [], f, l. now split.
  - destruct f; cbn in Q; try discriminate; destruct (Nat.eqb _ _); discriminate.
Qed.
Lemma cnt_suffix y l : (cnt r l <= cnt r (y ++ l))%nat.
Proof. rewrite cnt_app. lia. Qed.
(** the holder of the lock gives it back *)
Lemma pop_many y : forall tr s h z, still tr s -> stk s h = y ++ z -> Forall (fun f => m < rk f)%nat y -> reaches (S m) tr s h z (fun _ => True).
Proof.
  induction y as [|f y IHy]; intros tr s h z A0 E F; [now apply reaches_end|]. pose proof (Forall_inv F) as L1. pose proof (Forall_inv_tail F) as F1. eapply reaches_bind; [apply (pop_high _ _ _ _ _ A0 E); trivial|]. intros t s1 B1 _. apply IHy; trivial; apply B1.
Qed.
Lemma hold_rk f : hold r f = 1%nat -> rk f = m.
Proof. rewrite <- rm. destruct f; cbn; try discriminate; destruct (Nat.eqb_spec r0 r) as [->|]; try discriminate; reflexivity. Qed.
Lemma pop_lk tr s g a rest : still tr s -> stk s g = FLk r a :: rest -> reaches m tr s g rest (without a).
Proof.
  intros A0 E.
  assert (FREE : forall tr s, still tr s -> stk s g = FLk r a :: rest -> lock (rq s r) = None -> reaches m tr s g rest (without a)).
  { clear tr s A0 E. intros tr s A0 E L. apply (reaches_step _ _ _ _ _ _ [] [FCk r a] (set_lock s r (Some g)) _ _ A0 E); [cbn [go]; now rewrite L|now apply e_lk|]. intros A1 E1. apply reaches_le with (S m); [lia|]. eapply pop_ck; eauto. }
  destruct (lock (rq s r)) as [h|] eqn:L; [|now apply FREE].
  pose proof (q_locks _ _ (y_good _ _ (still_all _ _ A0))) as LK. pose proof (LK r h) as C. rewrite L in C. cbn in C. rewrite Nat.eqb_refl in C.
  destruct (cnt_split (stk s h)) as (y & f & z & EH & HF); [lia|].
  assert (HG : h <> g).
  { intros ->. rewrite E in EH. destruct y as [|x y]; [injection EH as <- _; discriminate HF|]. rewrite E in C. pose proof (still_ranks tr s g (x :: y) f z x A0) as Q. rewrite E in Q. specialize (Q EH (or_introl eq_refl)). injection EH as <- _. rewrite (hold_rk _ HF) in Q. cbn in Q. rewrite rm in Q. lia. }
  assert (Y : Forall (fun f => m < rk f)%nat y). { apply Forall_forall. intros x I. rewrite <- (hold_rk _ HF). eapply still_ranks; eauto. }
  destruct (pop_many _ _ _ _ _ A0 EH Y) as (t1 & s1 & B1 & _). destruct (pop_held _ _ _ _ _ (bg_still _ _ _ _ _ _ _ B1) (bg_stk _ _ _ _ _ _ _ B1) HF) as (t2 & s2 & B2 & _).
  pose proof (big_trans _ _ _ _ _ _ _ _ _ _ B1 B2) as B3. clear B1 B2. rename t2 into tt2. set (t2 := t1 ++ tt2) in *. clearbody t2.
  assert (E2 : stk s2 g = FLk r a :: rest). { apply (popped_top (S m)); [rewrite <- E; apply (bg_oth _ _ _ _ _ _ _ B3); auto|cbn; lia]. }
  assert (L2 : lock (rq s2 r) = None).
  { destruct (lock (rq s2 r)) as [h'|] eqn:L2; trivial. pose proof (q_locks _ _ (y_good _ _ (still_all _ _ (bg_still _ _ _ _ _ _ _ B3))) r h') as C2. rewrite L2 in C2. cbn in C2. rewrite Nat.eqb_refl in C2.
    destruct (Nat.eq_dec h' h) as [->|N].
    - rewrite (bg_stk _ _ _ _ _ _ _ B3) in C2. rewrite EH, cnt_app in C. cbn in C. lia.
    - destruct (bg_oth _ _ _ _ _ _ _ B3 _ N) as (w & Q & _). pose proof (LK r h') as C4. rewrite L in C4. cbn in C4. destruct (Nat.eqb_spec h h') as [->|]; [contradiction|]. pose proof (cnt_suffix w (stk s2 h')) as C5. rewrite <- Q in C5. lia. }
  destruct (FREE _ _ (bg_still _ _ _ _ _ _ _ B3) E2 L2) as (t3 & s3 & [X1 X2 X3 X4 X5 X6] & P). destruct B3 as [Y1 Y2 Y3 Y4 Y5 Y6]. exists (t2 ++ t3), s3. split; [|exact P]. split; trivial.
  - eapply sched_trans; eauto.
  - now rewrite app_assoc.
  - intros h' N. eapply popped_trans; [|apply X4, N]. destruct (Nat.eq_dec h' h) as [->|N']; [|eapply popped_le; [|apply Y4, N']; lia].
    rewrite Y3, EH. exists (y ++ [f]). split; [now rewrite <- app_assoc|]. apply Forall_app. split; [eapply Forall_impl; [|exact Y]; cbn; intros; lia|]. constructor; [|constructor]. rewrite (hold_rk _ HF). lia.
  - congruence.
  - auto.
Qed.
End Request.
(** ** the steps of Cancel *)
Section Ctx.
Variable c : nat.
Hypothesis cm : rc c = m.
Lemma list_pops l : forall tr s g rest, still tr s -> stk s g = FCall c l :: rest -> reaches (S m) tr s g (FCall c [] :: rest) (fun s' => forall r d, In (CR r) l -> ~ In (CR r) (reg s' d)).
Proof.
  induction l as [|x l IHl]; intros tr s g rest A0 E; [apply reaches_end; trivial; intros r d []|].
  apply (reaches_step _ _ _ _ _ _ [] [cancel_of x; FCall c l] s _ _ A0 E eq_refl (e_call1 _ _ _ _ _)). intros A1 E1. rewrite app_nil_r in A1 |- *.
  assert (RK : (m < rk (cancel_of x))%nat). { rewrite <- cm. apply (still_ranks _ _ g [cancel_of x] (FCall c l) rest _ A1); [exact E1|now left]. }
  eapply reaches_bind; [apply (pop_high _ _ _ _ _ A1 E1 RK)|]. intros t s2 B2 P2. eapply reaches_bind; [apply (IHl _ _ _ rest (bg_still _ _ _ _ _ _ _ B2) (bg_stk _ _ _ _ _ _ _ B2))|].
  intros t' s3 B3 P3. apply reaches_end; [apply B3|apply B3|]. intros r d [->|I]; [|now apply P3]. intro I. apply (bg_reg _ _ _ _ _ _ _ B3) in I. cbn in P2. now apply (P2 eq_refl) in I.
Qed.
Lemma pop_l2_nil tr s g rest : still tr s -> stk s g = FL2 c :: rest -> sl (cx s c) = [] -> reaches (S m) tr s g rest (fun _ => True).
Proof. intros A0 E R. apply (reaches_step _ _ _ _ _ _ [] [] s _ _ A0 E); [cbn [go]; now rewrite R|now apply e_l2a|]. intros A1 E1. now apply reaches_end. Qed.
Lemma pop_coll tr s g rest : still tr s -> stk s g = FColl c :: rest -> reaches (S m) tr s g rest (fun _ => True).
Proof.
  intros A0 E. apply (reaches_step _ _ _ _ _ _ [] [FCall c (reg s c)] s _ _ A0 E); [cbn [go]; now rewrite (still_mu _ _ c A0)|apply e_coll; apply (still_mu _ _ c A0)|]. intros A1 E1. rewrite app_nil_r in A1 |- *.
  eapply reaches_bind; [apply (list_pops _ _ _ _ _ A1 E1)|]. intros t s2 B2 P2.
  assert (R0 : reg s2 c = []).
  { destruct (reg s2 c) as [|x l] eqn:Q; trivial. assert (IN : In x (reg s2 c)) by (rewrite Q; now left). exfalso. destruct x as [r|d].
    - apply (P2 r c); trivial. apply (bg_reg _ _ _ _ _ _ _ B2) in IN. exact IN.
    - now apply (l_kid _ _ (bg_still _ _ _ _ _ _ _ B2)) in IN. }
  unfold reg in R0. apply app_eq_nil in R0. destruct R0 as [R1 R2].
  apply (reaches_step _ _ _ _ _ _ [] [FL1 c] s2 _ _ (bg_still _ _ _ _ _ _ _ B2) (bg_stk _ _ _ _ _ _ _ B2) eq_refl (e_call0 _ _ _)). intros A3 E3.
  set (s3 := set_stk s2 g ([FL1 c] ++ rest)) in *. apply (reaches_step _ _ _ _ _ _ [] [FL2 c] s3 _ _ A3 E3); [cbn [go]; change (cx s3) with (cx s2); now rewrite R2|apply e_l1a; exact R2|]. intros A4 E4. apply pop_l2_nil; trivial.
Qed.
Lemma pop_l2 tr s g rest : still tr s -> stk s g = FL2 c :: rest -> reaches (S m) tr s g rest (fun _ => True).
Proof.
  intros A0 E. destruct (sl (cx s c)) as [|y l] eqn:SL; [now apply pop_l2_nil|].
  apply (reaches_step _ _ _ _ _ _ [] [FColl c] s _ _ A0 E); [cbn [go]; now rewrite SL|apply e_l2b; now rewrite SL|]. intros A1 E1. now apply pop_coll.
Qed.
Lemma pop_l1 tr s g rest : still tr s -> stk s g = FL1 c :: rest -> reaches (S m) tr s g rest (fun _ => True).
Proof.
  intros A0 E. destruct (mp (cx s c)) as [|y l] eqn:MP.
  - apply (reaches_step _ _ _ _ _ _ [] [FL2 c] s _ _ A0 E); [cbn [go]; now rewrite MP|now apply e_l1a|]. intros A1 E1. now apply pop_l2.
  - apply (reaches_step _ _ _ _ _ _ [] [FColl c] s _ _ A0 E); [cbn [go]; now rewrite MP|apply e_l1b; now rewrite MP|]. intros A1 E1. now apply pop_coll.
Qed.
Lemma pop_call l tr s g rest : still tr s -> stk s g = FCall c l :: rest -> reaches (S m) tr s g rest (fun _ => True).
Proof.
  intros A0 E. eapply reaches_bind; [apply (list_pops _ _ _ _ _ A0 E)|]. intros t s2 B2 _.
  apply (reaches_step _ _ _ _ _ _ [] [FL1 c] s2 _ _ (bg_still _ _ _ _ _ _ _ B2) (bg_stk _ _ _ _ _ _ _ B2) eq_refl (e_call0 _ _ _)). intros A3 E3. now apply pop_l1.
Qed.
Lemma pop_cas w tr s g rest : still tr s -> stk s g = FCas w c :: rest -> reaches (S m) tr s g rest (fun _ => True).
Proof.
  intros A0 E. destruct (dead (cx s c)) eqn:D.
  - apply (reaches_step _ _ _ _ _ _ [] [] s _ _ A0 E); [cbn [go]; now rewrite D|now apply e_cas_no|]. intros A1 E1. now apply reaches_end.
  - apply (reaches_step _ _ _ _ _ _ [OSet g c] [FL1 c] (set_dead s c w) _ _ A0 E); [cbn [go]; now rewrite D|now apply e_cas|]. intros A1 E1. now apply pop_l1.
Qed.
Lemma pop_d1 p tr s g rest : still tr s -> stk s g = FD1 p c :: rest -> reaches (S m) tr s g rest (fun _ => True).
Proof.
  intros A0 E. apply (reaches_step _ _ _ _ _ _ [] [] (unregister s p (CX c)) _ _ A0 E); [cbn [go]; now rewrite (still_mu _ _ p A0)|apply e_d1; apply (still_mu _ _ p A0)|]. intros A1 E1. now apply reaches_end.
Qed.
Lemma pop_d0 tr s g rest : still tr s -> stk s g = FD0 c :: rest -> reaches (S m) tr s g rest (fun _ => True).
Proof.
  intros A0 E. destruct (par (cx s c)) as [p|] eqn:P.
  - apply (reaches_step _ _ _ _ _ _ [] [FD1 p c] (set_par s c None) _ _ A0 E); [cbn [go]; now rewrite P|now apply e_d0a|]. intros A1 E1. eapply pop_d1; eauto.
  - apply (reaches_step _ _ _ _ _ _ [] [] s _ _ A0 E); [cbn [go]; now rewrite P|now apply e_d0b|]. intros A1 E1. now apply reaches_end.
Qed.
End Ctx.
Lemma pops_level f : rk f = m -> maker f = false -> pops f.
Proof.
  intros L M tr s g rest A0 E. rewrite L.
  assert (UP : forall Q : sys -> Prop, reaches (S m) tr s g rest Q -> (forall s, Q s -> gone f s) -> reaches m tr s g rest (gone f)).
  { intros Q (t & s' & B & Y) X. exists t, s'. split; [|auto]. eapply big_le; [|exact B]. lia. }
  destruct f; try discriminate M; cbn in L;
    try (eapply UP; [solve [eapply pop_cas; eassumption|eapply pop_l1; eassumption|eapply pop_l2; eassumption|eapply pop_coll; eassumption|eapply pop_call; eassumption|eapply pop_d0; eassumption|eapply pop_d1; eassumption]|intros; exact Logic.I]);
    try (eapply UP; [solve [eapply (pop_held r L); [eassumption|eassumption|cbn; now rewrite Nat.eqb_refl]]|intros; exact Logic.I]).
  destruct (pop_lk r L _ _ _ _ _ A0 E) as (t & s' & B & Y). exists t, s'. split; [exact B|]. destruct a as [z|z]; cbn; trivial. intros ->. now apply Y.
Qed.
End Level.
Lemma pops_from : forall j m, (n <= m + j)%nat -> pops_all m.
Proof.
  induction j as [|j IHj]; intros m L f R M.
  - exfalso. assert (rk f < n)%nat by (unfold rk, rkx; destruct (subj f); auto). lia.
  - destruct (Nat.eq_dec (rk f) m) as [Q|Q]; [|apply (IHj (S m)); trivial; lia]. apply (pops_level m); trivial. apply IHj. lia.
Qed.
Lemma pops_any f : maker f = false -> pops f.
Proof. apply (pops_from n 0); lia. Qed.
(** a goroutine returns from everything *)
Lemma stack_ends : forall st' tr s g, still tr s -> stk s g = st' -> exists t s', big 0 tr s g [] t s'.
Proof.
  induction st' as [|f st' IHs]; intros tr s g A0 E.
  - destruct (reaches_end 0 tr s g [] (fun _ => True) A0 E Logic.I) as (t & s' & B & _). eauto.
  - assert (M : maker f = false) by (apply (l_made _ _ A0 g); rewrite E; now left). destruct (pops_any f M _ _ _ _ A0 E) as (t & s1 & B & _). apply (big_le 0) in B; [|lia].
    destruct (IHs _ _ g (bg_still _ _ _ _ _ _ _ B) (bg_stk _ _ _ _ _ _ _ B)) as (t' & s2 & B2). exists (t ++ t'), s2. eapply big_trans; eauto.
Qed.
Lemma popped_nil m b : popped m [] b -> b = [].
Proof. intros (y & E & _). now destruct y, b. Qed.
Lemma all_empty ks : forall tr s, still tr s -> (forall g, ~ In g ks -> stk s g = []) -> exists t s', sched s t s' /\ still (tr ++ t) s' /\ jb s' = jb s /\ forall g, stk s' g = [].
Proof.
  induction ks as [|k ks IHk]; intros tr s A0 N.
  - exists [], s. split; [exists []; now split|]. rewrite app_nil_r. repeat split; auto; try apply A0.
  - destruct (stack_ends _ tr s k A0 eq_refl) as (t & s1 & B). destruct (IHk _ _ (bg_still _ _ _ _ _ _ _ B)) as (t' & s2 & S2 & A2 & J2 & E2).
    + intros g H. destruct (Nat.eq_dec g k) as [->|D]; [apply B|]. apply (popped_nil 0). rewrite <- (N g); [apply B; exact D|]. cbn. intuition.
    + exists (t ++ t'), s2. split; [eapply sched_trans; [apply B|exact S2]|]. rewrite app_assoc. split; [exact A2|]. split; [rewrite J2; apply B|exact E2].
Qed.
End Live.

(** ** first, the calls that register something, and Done, come to their end *)
Definition reachable (tr : list obs) (s : sys) : Prop := exists es, run init es = (tr, s).
Definition light (f : frame) : bool := maker f || match f with FD0 _ | FD1 _ _ => true | _ => false end.
Definition no_a1 (s : sys) : Prop := forall g c x, ~ In (FA1 c x) (stk s g).
Lemma reach_step tr s k o s' : reachable tr s -> step s (EGo k) = (o, s') -> reachable (tr ++ o) s'.
Proof. intros (es & R) H. exists (es ++ [EGo k]). now rewrite run_snoc, R, H. Qed.
Lemma sched_refl s : sched s [] s.
Proof. exists []. now split. Qed.
Lemma reach_all tr s : reachable tr s -> allt tr s.
Proof. intros (es & R). eapply run_tidy; eauto. Qed.
Lemma only_top tr s g f rest h : reachable tr s -> stk s g = f :: rest -> In h rest -> light h = false.
Proof.
  intros (es & R) E I. pose proof (o_chain _ _ (run_orderly _ _ _ R) g) as C. rewrite E in C. clear - C I. revert f C. induction rest as [|x l IHl]; intros f C; [destruct I|]. destruct C as [U C]. destruct I as [<-|I]; [|eauto].
  destruct x; cbn in U; try contradiction; reflexivity.
Qed.
(** one goroutine goes on, the others do not *)
Record solo (tr : list obs) (s : sys) (g : nat) (t : list obs) (s' : sys) : Prop := {
  u_sched : sched s t s';
  u_reach : reachable (tr ++ t) s';
  u_oth : forall h, h <> g -> stk s' h = stk s h;
  u_jb : jb s' = jb s }.
Lemma solo_refl tr s g : reachable tr s -> solo tr s g [] s.
Proof. intro R. split; trivial; [apply sched_refl|now rewrite app_nil_r]. Qed.
Lemma solo_trans tr s g t s1 t' s2 : solo tr s g t s1 -> solo (tr ++ t) s1 g t' s2 -> solo tr s g (t ++ t') s2.
Proof. intros [S1 R1 O1 J1] [S2 R2 O2 J2]. split; [eapply sched_trans; eauto|now rewrite app_assoc|intros h N; rewrite O2, O1; auto|congruence]. Qed.
Lemma solo_one tr s g f rest o fs s1 : reachable tr s -> stk s g = f :: rest -> go s g f rest = (o, set_stk s1 g (fs ++ rest)) -> eff s g f o fs s1 -> solo tr s g o (set_stk s1 g (fs ++ rest)).
Proof.
  intros R E G H. destruct (eff_stk _ _ _ _ _ _ H) as [ES EJ]. assert (ST : step s (EGo g) = (o, set_stk s1 g (fs ++ rest))) by (cbn [step]; now rewrite E).
  split; trivial; [now apply sched_one in ST|eapply reach_step; eauto|]. intros h N. cbn. now rewrite fupd_other, ES.
Qed.
Lemma no_a1_mu tr s c : reachable tr s -> no_a1 s -> mu (cx s c) = false.
Proof. intros R N. destruct (mu (cx s c)) eqn:X; trivial. destruct (t_mu _ (y_tidy _ _ (reach_all _ _ R)) _ X) as (g & x & I). now apply N in I. Qed.
Lemma a1_dec f : (exists c x, f = FA1 c x) \/ forall c x, f <> FA1 c x.
Proof. destruct f; try (right; intros; discriminate). left; eauto. Qed.
Lemma unlock_one tr s g : reachable tr s -> exists t s', solo tr s g t s' /\ forall c x, ~ In (FA1 c x) (stk s' g).
Proof.
  intro R. destruct (stk s g) as [|f rest] eqn:E; [exists [], s; split; [now apply solo_refl|rewrite E; easy]|].
  assert (NR : forall c x, ~ In (FA1 c x) rest) by (intros c x I; apply (only_top _ _ _ _ _ _ R E) in I; discriminate).
  destruct (a1_dec f) as [(c & x & ->)|N].
  - exists [], (set_stk (set_mu (register s c x) c false) g ([] ++ rest)). split; [apply (solo_one _ _ _ _ _ _ _ _ R E eq_refl (e_a1 _ _ _ _))|]. cbn. rewrite fupd_same. exact NR.
  - exists [], s. split; [now apply solo_refl|]. rewrite E. intros c x [I|I]; [now apply N in I|now apply NR in I].
Qed.
Lemma unlock_all ks : forall tr s, reachable tr s -> exists t s', sched s t s' /\ reachable (tr ++ t) s' /\ jb s' = jb s /\ (forall g, ~ In g ks -> stk s' g = stk s g) /\ forall g c x, In g ks -> ~ In (FA1 c x) (stk s' g).
Proof.
  induction ks as [|k ks IHk]; intros tr s R.
  - exists [], s. rewrite app_nil_r. split; [apply sched_refl|]. repeat split; auto.
  - destruct (IHk _ _ R) as (t & s1 & S1 & R1 & J1 & O1 & N1). destruct (unlock_one _ _ k R1) as (t' & s2 & [S2 R2 O2 J2] & N2). exists (t ++ t'), s2. split; [eapply sched_trans; eauto|]. rewrite app_assoc. split; [exact R2|]. split; [congruence|]. split.
    + intros g N. cbn in N. rewrite O2, O1; auto.
    + intros g c x I. destruct (Nat.eq_dec g k) as [->|D]; [apply N2|]. rewrite O2 by exact D. apply N1. destruct I; congruence.
Qed.
Definition light_free (l : list frame) : Prop := forall f, In f l -> light f = false.
Lemma settle_one tr s g : reachable tr s -> no_a1 s -> exists t s', solo tr s g t s' /\ light_free (stk s' g).
Proof.
  intros R N. destruct (stk s g) as [|f rest] eqn:E; [exists [], s; split; [now apply solo_refl|rewrite E; easy]|].
  assert (LR : light_free rest) by (intros h I; now apply (only_top _ _ _ _ _ _ R E) in I).
  assert (MU : forall c, mu (cx s c) = false) by (intro c; eapply no_a1_mu; eauto).
  assert (STOP : forall o fs s1, go s g f rest = (o, set_stk s1 g (fs ++ rest)) -> eff s g f o fs s1 -> light_free fs -> exists t s', solo tr s g t s' /\ light_free (stk s' g)).
  { intros o fs s1 G H L. exists o, (set_stk s1 g (fs ++ rest)). split; [eapply solo_one; eauto|]. cbn. rewrite fupd_same. intros h I. apply in_app_iff in I. destruct I; auto. }
  assert (ONE : forall x, light x = false -> light_free [x]) by (intros x L h [<-|[]]; exact L).
  assert (CO : forall x, light (cancel_of x) = false) by (intros [x|x]; reflexivity).
  assert (A0' : forall tr s c x, reachable tr s -> stk s g = FA0 c x :: rest -> mu (cx s c) = false -> exists t s', solo tr s g t s' /\ light_free (stk s' g)).
  { clear - LR CO. intros tr s c x R E MU. destruct (dead (cx s c)) eqn:D.
    - exists [], (set_stk s g ([cancel_of x] ++ rest)). split; [apply (solo_one _ _ _ _ _ _ _ _ R E); [cbn [go]; now rewrite MU, D|now apply e_a0a]|]. cbn. rewrite fupd_same. intros h [<-|I]; [apply CO|now apply LR].
    - assert (P : solo tr s g [] (set_stk (set_mu s c true) g ([FA1 c x] ++ rest))) by (apply (solo_one _ _ _ _ _ _ _ _ R E); [cbn [go]; now rewrite MU, D|now apply e_a0b]).
      set (s1 := set_stk (set_mu s c true) g ([FA1 c x] ++ rest)) in *. assert (E1 : stk s1 g = FA1 c x :: rest) by (cbn; now rewrite fupd_same).
      exists ([] ++ []), (set_stk (set_mu (register s1 c x) c false) g ([] ++ rest)). split; [eapply solo_trans; [exact P|]; apply (solo_one _ _ _ _ _ _ _ _ (u_reach _ _ _ _ _ P) E1 eq_refl (e_a1 _ _ _ _))|]. cbn. rewrite fupd_same. exact LR. }
  destruct f as [w c|c|c|c|c l|c r|c d|c x|c x|d|p d|r a|r a|r a|r a|r a|r a|r a|r a|r a|r a];
    try (exists [], s; split; [now apply solo_refl|rewrite E; intros h [<-|I]; [reflexivity|now apply LR]]).
  - destruct (dead (cx s c)) eqn:D.
    + apply (STOP [] [FLk r (Fail RcCanceled)] s); [cbn [go]; now rewrite D|now apply e_n0a|now apply ONE].
    + assert (P : solo tr s g [] (set_stk (set_own s r c) g ([FA0 c (CR r)] ++ rest))) by (apply (solo_one _ _ _ _ _ _ _ _ R E); [cbn [go]; now rewrite D|now apply e_n0b]).
      destruct (A0' _ _ c (CR r) (u_reach _ _ _ _ _ P)) as (t & s' & P' & L); [cbn; now rewrite fupd_same|apply MU|]. exists ([] ++ t), s'. split; [eapply solo_trans; eauto|exact L].
  - destruct (dead (cx s c)) eqn:D.
    + apply (STOP [] [FCas CxCanceled d] s); [cbn [go]; now rewrite D|now apply e_c0a|now apply ONE].
    + assert (P : solo tr s g [] (set_stk s g ([FA0 c (CX d)] ++ rest))) by (apply (solo_one _ _ _ _ _ _ _ _ R E); [cbn [go]; now rewrite D|now apply e_c0b]).
      destruct (A0' _ _ c (CX d) (u_reach _ _ _ _ _ P)) as (t & s' & P' & L); [cbn; now rewrite fupd_same|apply MU|]. exists ([] ++ t), s'. split; [eapply solo_trans; eauto|exact L].
  - now apply (A0' _ _ c x R).
  - exfalso. apply (N g c x). rewrite E. now left.
  - destruct (par (cx s d)) as [p|] eqn:P.
    + assert (P1 : solo tr s g [] (set_stk (set_par s d None) g ([FD1 p d] ++ rest))) by (apply (solo_one _ _ _ _ _ _ _ _ R E); [cbn [go]; now rewrite P|now apply e_d0a]).
      set (s1 := set_stk (set_par s d None) g ([FD1 p d] ++ rest)) in *. assert (E1 : stk s1 g = FD1 p d :: rest) by (cbn; now rewrite fupd_same).
      assert (M1 : mu (cx s1 p) = false) by (cbn; unfold fupd; destruct (Nat.eqb p d); cbn; apply MU).
      exists ([] ++ []), (set_stk (unregister s1 p (CX d)) g ([] ++ rest)). split; [eapply solo_trans; [exact P1|]; apply (solo_one _ _ _ _ _ _ _ _ (u_reach _ _ _ _ _ P1) E1); [cbn [go]; now rewrite M1|now apply e_d1]|]. cbn. rewrite fupd_same. exact LR.
    + apply (STOP [] [] s); [cbn [go]; now rewrite P|now apply e_d0b|easy].
  - apply (STOP [] [] (unregister s p (CX d))); [cbn [go]; now rewrite MU|now apply e_d1|easy].
Qed.
Lemma settle_all ks : forall tr s, reachable tr s -> no_a1 s -> exists t s', sched s t s' /\ reachable (tr ++ t) s' /\ jb s' = jb s /\ no_a1 s' /\ (forall g, ~ In g ks -> stk s' g = stk s g) /\ forall g, In g ks -> light_free (stk s' g).
Proof.
  induction ks as [|k ks IHk]; intros tr s R N.
  - exists [], s. rewrite app_nil_r. split; [apply sched_refl|]. split; [exact R|]. repeat split; trivial. intros g [].
  - destruct (IHk _ _ R N) as (t & s1 & S1 & R1 & J1 & N1 & O1 & L1). destruct (settle_one _ _ k R1 N1) as (t' & s2 & [S2 R2 O2 J2] & L2). exists (t ++ t'), s2. split; [eapply sched_trans; eauto|]. rewrite app_assoc. split; [exact R2|]. split; [congruence|]. split; [|split].
    + intros g c x I. destruct (Nat.eq_dec g k) as [->|D]; [apply L2 in I; discriminate|]. rewrite O2 in I by exact D. now apply N1 in I.
    + intros g H. cbn in H. rewrite O2, O1; auto.
    + intros g I. destruct (Nat.eq_dec g k) as [->|D]; [exact L2|]. rewrite O2 by exact D. apply L1. destruct I; congruence.
Qed.
(** ** the goroutines that have done anything are finitely many *)
Lemma finitely_many es tr s : run init es = (tr, s) -> exists ks, forall g, ~ In g ks -> jb s g = None.
Proof.
  revert es tr s. apply run_ind; [exists []; reflexivity|]. intros _ s o s' (ks & N) M.
  assert (X : exists k, forall g, g <> k -> jb s' g = jb s g).
  { destruct M as [|k f rest o fs s1 E H|k j o s' E J R|k j f o s1 J C|o s' F].
    - now exists 0%nat.
    - exists k. intros g _. destruct (eff_stk _ _ _ _ _ _ H) as [_ EJ]. cbn. now rewrite EJ.
    - exists k. intros g D. destruct (ret_rq _ _ _ _ _ R) as (_ & EJ & _). now rewrite EJ, fupd_other.
    - exists k. intros g D. destruct (calls_stk _ _ _ _ _ _ C) as (_ & EJ & _). cbn. now rewrite fupd_other, EJ.
    - exists 0%nat. intros g _. now destruct F. }
  destruct X as (k & X). exists (k :: ks). intros g I. cbn in I. rewrite X; [apply N|]; auto.
Qed.
(** ** what a schedule without further calls adds *)
Lemma goes_adds s t s' : sched s t s' -> forall b, In b t -> match b with OChild _ _ _ | ODone _ | ONew _ _ _ | OHandle _ _ => False | _ => True end.
Proof.
  intros (l & F & R). revert s t R. induction F as [|e l (k & ->) F IHf]; intros s t R b I; cbn [run] in R; [injection R as <- _; destruct I|].
  destruct (step s (EGo k)) as [o s1] eqn:ST. destruct (run s1 l) as [os s2] eqn:R2. injection R as <- <-. apply in_app_iff in I. destruct I as [I|I]; [|eapply IHf; eauto].
  clear - ST I. cbn [step] in ST. destruct (stk s k) as [|f rest] eqn:E.
  - destruct (jb s k) as [j|]; [|injection ST as <- _; destruct I]. destruct j; cbn in ST; injection ST as <- _; cbn in I; try destruct I as [<-|[]]; trivial; contradiction.
  - destruct f; cbn [go] in ST; repeat match type of ST with context [match ?d with _ => _ end] => destruct d end; injection ST as <- _; cbn in I; try destruct I as [<-|[]]; trivial; contradiction.
Qed.
Lemma done_kept s t s' tr : sched s t s' -> children_done tr -> children_done (tr ++ t).
Proof.
  intros SC CD k p d I. assert (NT := goes_adds _ _ _ SC). apply in_app_iff in I. destruct I as [I|I]; [|now apply NT in I]. destruct (CD _ _ _ I) as [D F]. split; [apply in_app_iff; now left|].
  intros a b Q. apply app_eq_app in Q. destruct Q as (w & [[-> Q]|[-> Q]]).
  - destruct w as [|x w]; cbn in Q.
    + exfalso. destruct t as [|x t]; [discriminate|]. injection Q as <- _. now apply (NT (ODone d)); left.
    + injection Q as <- _. now apply (F a w).
  - exfalso. apply (NT (ODone d)). rewrite Q. apply in_app_iff. right. now left.
Qed.
Lemma settled_nokid tr s : reachable tr s -> (forall g, light_free (stk s g)) -> children_done tr -> nokid s.
Proof.
  intros (es & R) L CD p d I. pose proof (run_tidy _ _ _ R) as [G B K W T]. pose proof (run_given_back _ _ _ R) as U.
  destruct (w_reg _ _ W _ _ I) as (k & C). destruct (CD _ _ _ C) as [D F].
  assert (NE : ~ early tr d) by (intros (a & b & Q & N); apply F in Q; now apply N in Q).
  assert (CR' : In (OChildRet k p d) tr) by (apply in_split in D; destruct D as (a & b & Q); pose proof (F _ _ Q) as X; rewrite Q; apply in_app_iff; now left).
  destruct (v_ret _ _ U _ _ _ CR') as [X|[X|[(g & X)|X]]]; [contradiction| |apply L in X; discriminate|contradiction].
  destruct (v_done _ _ U _ D) as [Y|[Y|(g & Y)]]; [contradiction|congruence|]. apply L in Y. discriminate.
Qed.
Lemma all_return ks : forall tr s, reachable tr s -> (forall g, stk s g = []) -> exists t s', sched s t s' /\ (forall g, stk s' g = []) /\ (forall g, In g ks -> jb s' g = None) /\ forall g, jb s g = None -> jb s' g = None.
Proof.
  induction ks as [|k ks IHk]; intros tr s R E.
  - exists [], s. split; [apply sched_refl|]. repeat split; trivial. intros g [].
  - destruct (jb s k) as [j|] eqn:J.
    + destruct (step s (EGo k)) as [o s1] eqn:ST. pose proof (reach_step _ _ _ _ _ R ST) as R1. pose proof (sched_one _ _ _ _ ST) as S1. cbn [step] in ST. rewrite E, J in ST. destruct (ret_rq _ _ _ _ _ ST) as (ES & EJ & _).
      destruct (IHk _ _ R1) as (t & s2 & S2 & E2 & J2 & K2); [intro g; now rewrite ES|]. exists (o ++ t), s2. split; [eapply sched_trans; eauto|]. split; [exact E2|]. split.
      * intros g [<-|I]; [apply K2; rewrite EJ; now rewrite fupd_same|auto].
      * intros g N. apply K2. rewrite EJ. unfold fupd. destruct (Nat.eqb g k); auto.
    + destruct (IHk _ _ R E) as (t & s2 & S2 & E2 & J2 & K2). exists t, s2. repeat split; trivial. intros g [<-|I]; auto.
Qed.
Lemma all_end tr s : reachable tr s -> children_done tr -> exists t s', sched s t s' /\ at_rest s'.
Proof.
  intros R CD. pose proof R as (es & RUN). destruct (finitely_many _ _ _ RUN) as (ks & NJ).
  assert (NS : forall g, ~ In g ks -> stk s g = []) by (intros g H; apply (q_jb _ _ (y_good _ _ (reach_all _ _ R))); auto).
  destruct (unlock_all ks _ _ R) as (t1 & s1 & S1 & R1 & J1 & O1 & N1).
  assert (NA : no_a1 s1). { intros g c x. destruct (in_dec Nat.eq_dec g ks) as [I|I]; [now apply N1|]. rewrite O1, NS by exact I. easy. }
  destruct (settle_all ks _ _ R1 NA) as (t2 & s2 & S2 & R2 & J2 & N2 & O2 & L2).
  assert (LF : forall g, light_free (stk s2 g)). { intro g. destruct (in_dec Nat.eq_dec g ks) as [I|I]; [now apply L2|]. rewrite O2, O1, NS by exact I. easy. }
  assert (CD2 : children_done ((tr ++ t1) ++ t2)) by (eapply done_kept; [exact S2|]; eapply done_kept; eauto).
  pose proof (settled_nokid _ _ R2 LF CD2) as NK. pose proof R2 as (es2 & RUN2). destruct (o_rk _ _ (run_orderly _ _ _ RUN2)) as (rc & rr & n & B1 & B2 & OR).
  assert (A2 : still rc rr ((tr ++ t1) ++ t2) s2). { split; trivial. intros g f I. apply LF in I. unfold light in I. now apply orb_false_iff in I. }
  destruct (all_empty rc rr n B1 B2 ks _ _ A2) as (t3 & s3 & S3 & A3 & J3 & E3); [intros g I; rewrite O2, O1, NS by exact I; reflexivity|].
  destruct (all_return ks _ _ (l_reach _ _ _ _ A3) E3) as (t4 & s4 & S4 & E4 & J4 & K4).
  exists (((t1 ++ t2) ++ t3) ++ t4), s4. split; [repeat (eapply sched_trans; eauto)|]. intro g. destruct (in_dec Nat.eq_dec g ks) as [I|I]; [now apply J4|]. apply K4. rewrite J3, J2, J1. now apply NJ.
Qed.
