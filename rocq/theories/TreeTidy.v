(** What is registered with a context is registered once, belongs to it, and is unfinished; and nothing contains itself. *)
From Coq Require Import ZArith List Bool Arith Lia Permutation.
Import ListNotations.
From Verif Require Import RequestModel.
From Verif Require Import TreeModel TreeSpec TreeProofs TreeBirth TreeCancel TreeHistory CauseSpec CauseProps.
Open Scope Z_scope.

Definition pre (x : canc) (f : frame) : Prop :=
  match f with FN0 _ r => x = CR r | FC0 _ d => x = CX d | FA0 _ y | FA1 _ y => x = y | _ => False end.
Definition touches (r : nat) (f : frame) : Prop :=
  match f with
  | FCall _ l => In (CR r) l
  | FLk q _ | FCk q _ | FPr q _ | FB1 q _ | FR1 q _ | FR2 q _ | FB2 q _ | FDl q _ | FPf q _ | FUl q _ => q = r
  | _ => False
  end.
Record fresh_r (s : sys) (r : nat) : Prop := {
  fr_reg : forall c, ~ In (CR r) (reg s c);
  fr_st : state (rq s r) = RsNew;
  fr_hc : hc (rq s r) = None;
  fr_stk : forall g h, In h (stk s g) -> ~ touches r h }.
Definition over (s : sys) (r : nat) : Prop := state (rq s r) = RsPerformed \/ exists g a, In (FDl r a) (stk s g) \/ In (FPf r a) (stk s g).
Definition ranked (s : sys) : Prop := exists rc rr n, (forall c, rc c < n)%nat /\ (forall r, rr r < n)%nat /\
  (forall r c, own (rq s r) = Some c -> rc c < rr r)%nat /\ (forall r x, hc (rq s r) = Some x -> rr r < rc x)%nat.
Record tidy (s : sys) : Prop := {
  t_nd : forall c, NoDup (reg s c);
  t_pre : forall k f x, In f (stk s k) -> pre x f -> forall c, ~ In x (reg s c);
  t_prer : forall k f r, In f (stk s k) -> pre (CR r) f -> fresh_r s r;
  t_new : forall r, born (rq s r) = false -> fresh_r s r;
  t_own : forall r c, In (CR r) (reg s c) -> own (rq s r) = Some c;
  t_over : forall r, over s r -> forall c, ~ In (CR r) (reg s c);
  t_mu : forall c, mu (cx s c) = true -> exists k x, In (FA1 c x) (stk s k);
  t_bc : forall r c, own (rq s r) = Some c -> cborn (cx s c) = true;
  t_jc : forall k c r, jb s k = Some (JNew c r) -> cborn (cx s c) = true;
  t_rk : ranked s }.

Lemma NoDup_drop x l : NoDup l -> NoDup (drop x l) /\ ~ In x (drop x l).
Proof.
  induction 1 as [|y l N ND IH]; cbn; [split; [constructor|easy]|]. destruct (ceq x y) eqn:E; [apply ceq_eq in E; now subst|]. destruct IH as [I1 I2]. split.
  - constructor; [|exact I1]. intro H. apply N. eapply drop_in; eauto.
  - intros [->|H]; [|now apply I2]. assert (ceq x x = true) by (now apply ceq_eq). congruence.
Qed.
Lemma register_nd s c x : NoDup (reg s c) -> ~ In x (reg s c) -> NoDup (reg (register s c x) c).
Proof.
  intros ND N. apply Permutation_NoDup with (x :: reg s c); [|now constructor]. unfold register, reg. destruct (_ <? 2)%nat; cbn; rewrite fupd_same; cbn.
  - rewrite <- app_assoc. cbn. apply Permutation_middle.
  - rewrite app_assoc. apply Permutation_cons_append.
Qed.
Lemma NoDup_app_l {A} (a b : list A) : NoDup (a ++ b) -> NoDup a.
Proof. induction a as [|x a IH]; cbn; [constructor|]. intro H. inversion H; subst. constructor; [|auto]. intro I. match goal with X : ~ _ |- _ => apply X end. apply in_app_iff. now left. Qed.
Lemma NoDup_app_r {A} (a b : list A) : NoDup (a ++ b) -> NoDup b.
Proof. induction a as [|x a IH]; cbn; [trivial|]. intro H. inversion H; subst. auto. Qed.
Lemma NoDup_app_i {A} (a b : list A) : NoDup a -> NoDup b -> (forall x, In x a -> ~ In x b) -> NoDup (a ++ b).
Proof.
  induction a as [|x a IH]; cbn; [trivial|]. intros H1 H2 D. inversion H1; subst. constructor; [|apply IH; auto]. rewrite in_app_iff. intros [I|I]; [contradiction|]. apply (D x); auto.
Qed.
Lemma NoDup_app_d {A} (a b : list A) x : NoDup (a ++ b) -> In x a -> ~ In x b.
Proof. induction a as [|y a IH]; cbn; [easy|]. intro H. inversion H; subst. intros [->|I]; [|auto]. intro J. match goal with X : ~ _ |- _ => apply X end. apply in_app_iff. now right. Qed.
Lemma unregister_nd s c x : NoDup (reg s c) -> NoDup (reg (unregister s c x) c) /\ ~ In x (reg (unregister s c x) c).
Proof.
  intro ND. unfold reg in *. pose proof (NoDup_app_l _ _ ND) as N1. pose proof (NoDup_app_r _ _ ND) as N2. pose proof (fun y => NoDup_app_d _ _ y ND) as D.
  unfold unregister. destruct (existsb _ _) eqn:E; cbn; rewrite fupd_same; cbn.
  - destruct (NoDup_drop x _ N1) as [A1 A2]. split; [apply NoDup_app_i; trivial; intros y Y; apply D; eapply drop_in; eauto|]. rewrite in_app_iff. intros [I|I]; [contradiction|].
    apply existsb_exists in E. destruct E as (y & Y & Q). apply ceq_eq in Q. subst y. now apply D in Y.
  - split; [apply NoDup_app_i; trivial; [now apply NoDup_filter|]; intros y Y I; apply filter_In in I; now apply D in Y|]. rewrite in_app_iff, filter_In. intros [I|[_ I]].
    + assert (existsb (ceq x) (sl (cx s c)) = true); [|congruence]. apply existsb_exists. exists x. split; [exact I|now apply ceq_eq].
    + assert (ceq x x = true) by (now apply ceq_eq). destruct (ceq x x); discriminate.
Qed.

(** one step of a goroutine *)
Lemma eff_keeps s k f o fs s1 r : eff s k f o fs s1 -> ~ touches r f -> state (rq s1 r) = state (rq s r).
Proof.
  destruct 1; cbn [touches]; intro N; trivial; cbn; rewrite ?register_rq, ?unregister_rq; trivial; try (unfold fupd; destruct (Nat.eqb_spec r r0) as [->|]; trivial; now elim N).
Qed.
Lemma eff_touches s k f o fs s1 r h : eff s k f o fs s1 -> ~ touches r f -> ~ pre (CR r) f -> (forall c, ~ In (CR r) (reg s c)) -> In h fs -> ~ touches r h.
Proof.
  intros H N P R I. destruct H; cbn [touches pre In] in *; repeat match goal with H : _ \/ _ |- _ => destruct H as [<-|I] end; try contradiction; cbn [touches]; auto.
  all: try apply R; try (destruct x as [q|d]; cbn; [|easy]); try (intros ->; first [now apply P|now apply N; left]); destruct (may s r0 a); exact N.
Qed.
Lemma pre_job tr s k f x : births tr s -> In f (stk s k) -> pre x f -> stk s k = [f] /\ exists c, jb s k = Some (match x with CR r => JNew c r | CX d => JChild c d end).
Proof.
  intros B I P. assert (M : maker f = true) by (destruct f; cbn in P; now trivial). destruct (b_makes _ _ B _ _ I M) as [E (j & J & Q)]. split; [exact E|].
  destruct f; cbn in P; try contradiction; subst; cbn in Q; try (destruct x0 as [q|d]); subst; eauto.
Qed.
Lemma pre_uniq tr s k f x g h : births tr s -> kids tr s -> In f (stk s k) -> pre x f -> In h (stk s g) -> pre x h -> g = k /\ h = f.
Proof.
  intros B K I P I' P'. destruct (pre_job _ _ _ _ _ B I P) as (E & c & J). destruct (pre_job _ _ _ _ _ B I' P') as (E' & c' & J').
  assert (g = k) as -> by (destruct x; [eapply b_uniq; eauto|eapply h_uniq; eauto]). split; [reflexivity|]. congruence.
Qed.
Lemma pre_dec x f : pre x f \/ ~ pre x f.
Proof.
  assert (D : forall a b : canc, {a = b} + {a <> b}) by (intros a b; decide equality; apply Nat.eq_dec).
  destruct f; cbn; try tauto; match goal with |- x = ?y \/ _ => destruct (D x y); tauto end.
Qed.
Lemma eff_pre_new s k f o fs s1 h x : eff s k f o fs s1 -> In h fs -> pre x h -> pre x f /\ (forall r, state (rq s1 r) = state (rq s r)) /\ (forall c, reg s1 c = reg s c) /\ forall r j, In j fs -> ~ touches r j.
Proof.
  destruct 1; cbn [In]; intros I P; repeat match goal with H : _ \/ _ |- _ => destruct H as [<-|I] end; try contradiction; try (destruct x0; contradiction); cbn in P; try contradiction.
  all: (split; [exact P|]); (split; [|split; [|intros q j [<-|[]]; exact (fun z => z)]]); trivial.
  - intro q. cbn. unfold fupd. destruct (Nat.eqb_spec q r) as [->|]; reflexivity.
  - intro c1. unfold reg. cbn. unfold fupd. destruct (Nat.eqb_spec c1 c) as [->|]; reflexivity.
Qed.
Lemma fresh_eff s k f o fs s1 rest r : stk s k = f :: rest -> eff s k f o fs s1 -> ~ pre (CR r) f -> fresh_r s r -> fresh_r (set_stk s1 k (fs ++ rest)) r.
Proof.
  intros E H P [F1 F2 F3 F4]. destruct (eff_stk _ _ _ _ _ _ H) as [ES _]. assert (T : ~ touches r f) by (apply (F4 k); rewrite E; now left). split.
  - intros c I. destruct (proj1 (eff_reg_inv _ _ _ _ _ _ c (CR r) H) I) as [Q| ->]; [now apply F1 in Q|]. now apply P.
  - cbn. rewrite (eff_keeps _ _ _ _ _ _ r H T). exact F2.
  - cbn. rewrite (proj1 (eff_rq _ _ _ _ _ _ r H)). exact F3.
  - intros g h I. destruct (in_after _ _ _ _ _ _ _ _ E ES I) as [[-> I']|[I' _]]; [|now apply (F4 g)]. eapply eff_touches; eauto.
Qed.
Lemma eff_mu s k f o fs s1 c : eff s k f o fs s1 -> mu (cx s1 c) = true -> (mu (cx s c) = true /\ forall x, f <> FA1 c x) \/ exists x, fs = [FA1 c x].
Proof.
  destruct 1; try (intro M; left; split; [exact M|discriminate]); cbn; try (unfold fupd; destruct (Nat.eqb_spec c c0) as [->|]; cbn; intro M; [|left; split; [exact M|congruence]]).
  - left; split; [exact M|congruence].
  - eauto.
  - unfold fupd; destruct (Nat.eqb_spec c c0) as [->|D]; cbn; intro M; [discriminate|]. rewrite register_other in M by assumption. left; split; [exact M|congruence].
  - unfold fupd; destruct (Nat.eqb_spec c d) as [->|]; cbn; intro M; (left; split; [exact M|congruence]).
  - unfold unregister. destruct (existsb _ _); cbn; (unfold fupd; destruct (Nat.eqb_spec c p) as [->|]; cbn; intro M; (left; split; [exact M|congruence])).
  - unfold unregister. destruct (existsb _ _); cbn; (unfold fupd; destruct (Nat.eqb_spec c c0) as [->|]; cbn; intro M; (left; split; [exact M|congruence])).
Qed.
Lemma eff_nd s k f o fs s1 c : eff s k f o fs s1 -> (forall x, f = FA1 c x -> ~ In x (reg s c)) -> NoDup (reg s c) -> NoDup (reg s1 c).
Proof.
  destruct 1; intros F N; trivial.
  - unfold reg in *. cbn. unfold fupd. destruct (Nat.eqb_spec c c0) as [->|]; exact N.
  - unfold reg in *. cbn. unfold fupd. destruct (Nat.eqb_spec c c0) as [->|]; exact N.
  - destruct (Nat.eq_dec c c0) as [->|D].
    + pose proof (register_nd s c0 x N (F x eq_refl)) as R. unfold reg in *. cbn. rewrite fupd_same. exact R.
    + unfold reg in *. cbn. rewrite fupd_other, register_other by exact D. exact N.
  - unfold reg in *. cbn. unfold fupd. destruct (Nat.eqb_spec c d) as [->|]; exact N.
  - destruct (Nat.eq_dec c p) as [->|D]; [now apply unregister_nd|]. unfold reg. rewrite unregister_other by exact D. exact N.
  - destruct (Nat.eq_dec c c0) as [->|D]; [now apply unregister_nd|]. unfold reg. rewrite unregister_other by exact D. exact N.
Qed.
Lemma eff_tidy tr s k f o fs s1 rest : stk s k = f :: rest -> eff s k f o fs s1 -> good tr s -> births tr s -> kids tr s -> causes tr s -> tidy s -> tidy (set_stk s1 k (fs ++ rest)).
Proof.
  intros E H G B K W T. destruct (eff_stk _ _ _ _ _ _ H) as [ES EJ]. assert (TOP : In f (stk s k)) by (rewrite E; now left).
  assert (NR : forall c x, pre x f -> ~ In x (reg s c)) by (intros c x P; exact (t_pre _ T _ _ _ TOP P c)).
  assert (OTH : forall g h x, In h (stk s g) -> (g <> k \/ In h rest) -> pre x h -> ~ pre x f).
  { intros g h x I D P P'. destruct (pre_uniq _ _ _ _ _ _ _ B K TOP P' I P) as [-> ->]. destruct D as [D|D]; [now apply D|]. destruct (pre_job _ _ _ _ _ B TOP P') as [E' _]. rewrite E in E'. injection E' as ->. destruct D. }
  split.
  - intro c. apply (eff_nd _ _ _ _ _ _ c H); [|apply T]. intros x ->. apply NR. reflexivity.
  - intros g h x I P c J. change (In x (reg s1 c)) in J. destruct (in_after _ _ _ _ _ _ _ _ E ES I) as [[-> I']|[I' D]].
    + destruct (eff_pre_new _ _ _ _ _ _ _ _ H I' P) as (P' & _ & Q & _). rewrite Q in J. now apply NR in J.
    + destruct (proj1 (eff_reg_inv _ _ _ _ _ _ c x H) J) as [Q| ->]; [exact (t_pre _ T _ _ _ I' P c Q)|]. now apply (OTH g h x I' D P).
  - intros g h r I P. destruct (in_after _ _ _ _ _ _ _ _ E ES I) as [[-> I']|[I' D]].
    + destruct (eff_pre_new _ _ _ _ _ _ _ _ H I' P) as (P' & Q1 & Q & Q2). destruct (t_prer _ T _ _ _ TOP P') as [F1 F2 F3 F4]. split.
      * intro c. change (~ In (CR r) (reg s1 c)). rewrite Q. apply F1.
      * cbn. now rewrite Q1.
      * cbn. now rewrite (proj1 (eff_rq _ _ _ _ _ _ r H)).
      * intros g j J. destruct (in_after _ _ _ _ _ _ _ _ E ES J) as [[-> J']|[J' _]]; [now apply Q2|now apply (F4 g)].
    + eapply fresh_eff; eauto. now apply (t_prer _ T g h).
  - intros r Q. cbn in Q. rewrite (proj1 (eff_flags _ _ _ _ _ _ r H)) in Q. eapply fresh_eff; eauto; [|now apply T].
    intro P. destruct (pre_job _ _ _ _ _ B TOP P) as (_ & c & J). apply (b_born _ _ B) in J. destruct J as [J _]. congruence.
  - intros r c I. change (own (rq s1 r) = Some c). change (In (CR r) (reg s1 c)) in I. destruct (proj1 (eff_reg_inv _ _ _ _ _ _ c (CR r) H) I) as [Q| ->].
    + destruct (eff_flags _ _ _ _ _ _ r H) as (_ & _ & [-> |(c' & -> & _)]); [now apply T|]. now apply NR in Q.
    + destruct (eff_flags _ _ _ _ _ _ r H) as (_ & _ & [-> |(c' & Q & _)]); [|discriminate]. destruct (pre_job _ _ _ _ (CR r) B TOP eq_refl) as (E1 & c' & J).
      destruct (b_makes _ _ B _ _ TOP eq_refl) as (_ & j & J' & Q'). cbn in Q'. subst j. destruct (b_stage _ _ B _ _ _ J') as [Q|[[_ Q]|[(p & h & Q & Q2)|[Q _]]]]; trivial; rewrite E1 in Q; try discriminate.
      destruct p as [|p0 [|p1 p]]; try discriminate. injection Q as <-. destruct Q2.
  - intros r OV c I. change (In (CR r) (reg s1 c)) in I. destruct (proj1 (eff_reg_inv _ _ _ _ _ _ c (CR r) H) I) as [Q| ->].
    + assert (NO : ~ over s r) by (intro O; exact (t_over _ T _ O c Q)). pose proof (t_own _ T _ _ Q) as OW. destruct OV as [OV|(g & a & OV)].
      * cbn in OV. assert (HP : state (rq s1 r) = RsPerformed -> state (rq s r) = RsPerformed \/ exists a, f = FPf r a). { clear - H. destruct H; cbn; rewrite ?register_rq, ?unregister_rq; auto; unfold fupd; destruct (Nat.eqb_spec r r0) as [->|]; cbn; eauto; discriminate. }
        destruct (HP OV) as [X|(a & ->)]; apply NO; [now left|]. right. eauto.
      * assert (HN : In (FDl r a) fs \/ In (FPf r a) fs). { destruct OV as [J|J]; destruct (in_after _ _ _ _ _ _ _ _ E ES J) as [[-> J']|[J' _]]; auto; elim NO; right; eauto. }
        clear OV. destruct H; cbn in HN; repeat match goal with X : _ \/ _ |- _ => destruct X as [HN|HN] end; try contradiction; try discriminate; try (destruct x; discriminate); injection HN as -> ->.
        -- congruence.
        -- rewrite OW in H. injection H as <-. now apply unregister_nd in I; [|apply T].
        -- apply NO. right. eauto.
    + destruct (t_prer _ T _ _ r TOP eq_refl) as [F1 F2 F3 F4]. destruct OV as [OV|(g & a & OV)].
      * cbn in OV. rewrite (eff_keeps _ _ _ _ _ _ r H (fun z => z)), F2 in OV. discriminate.
      * inversion H; subst. destruct OV as [J|J]; destruct (in_after _ _ _ _ _ _ _ _ E ES J) as [[-> J']|[J' _]]; try contradiction; exact (F4 _ _ J' eq_refl).
  - intros c M. destruct (eff_mu _ _ _ _ _ _ c H M) as [[M' N]|(x & ->)].
    + destruct (t_mu _ T _ M') as (g & x & I). destruct (in_kept _ _ _ _ s1 fs _ _ E ES I) as [[<- _]|Q]; [now elim (N x)|eauto].
    + exists k, x. cbn. rewrite fupd_same. now left.
  - intros r c Q. cbn in Q |- *. assert (CB : cborn (cx s c) = true); [|destruct (eff_cx _ _ _ _ _ _ c H); congruence].
    destruct (eff_rq _ _ _ _ _ _ r H) as (_ & _ & _ & [X|(c' & -> & X & _)]); [apply (t_bc _ T r); congruence|]. assert (c' = c) as -> by congruence. destruct (b_makes _ _ B _ _ TOP eq_refl) as (_ & j & J' & Q'). cbn in Q'. subst j. eapply t_jc; eauto.
  - intros g c r J. cbn in J. rewrite EJ in J. pose proof (t_jc _ T _ _ _ J). cbn. destruct (eff_cx _ _ _ _ _ _ c H); congruence.
  - destruct (t_rk _ T) as (rc & rr & n & R1 & R2 & R3 & R4).
    assert (KEEP : (forall r, own (rq s1 r) = own (rq s r)) -> ranked (set_stk s1 k (fs ++ rest))). { intro Q. exists rc, rr, n. repeat split; trivial; intros r x; cbn; [rewrite Q; apply R3|rewrite (proj1 (eff_rq _ _ _ _ _ _ r H)); apply R4]. }
    destruct f as [| | | | |c0 r0| | | | | | | | | | | | | | |]; try (apply KEEP; intro q; destruct (eff_flags _ _ _ _ _ _ q H) as (_ & _ & [Q|(c' & Q & _)]); [exact Q|discriminate]).
    exists rc, (fupd rr r0 n), (S n). split; [|split; [|split]].
    + intro c. specialize (R1 c). lia.
    + intro r. unfold fupd. destruct (Nat.eqb_spec r r0); [lia|]. specialize (R2 r). lia.
    + intros r c Q. cbn in Q. unfold fupd. destruct (Nat.eqb_spec r r0) as [->|D]; [apply R1|]. destruct (eff_flags _ _ _ _ _ _ r H) as (_ & _ & [X|(c' & X & _)]); [apply R3; congruence|congruence].
    + intros r x Q. cbn in Q. rewrite (proj1 (eff_rq _ _ _ _ _ _ r H)) in Q. unfold fupd. destruct (Nat.eqb_spec r r0) as [->|D]; [|now apply R4]. pose proof (fr_hc _ _ (t_prer _ T _ _ _ TOP eq_refl)). congruence.
Qed.

(** steps that are not of a goroutine under way *)
Lemma tidy_frame s s' : tidy s -> (forall c, reg s' c = reg s c) -> (forall c, mu (cx s' c) = mu (cx s c)) -> (forall c, cborn (cx s c) = true -> cborn (cx s' c) = true) ->
  (forall g h, In h (stk s g) -> In h (stk s' g)) ->
  (forall g h, In h (stk s' g) -> In h (stk s g) \/
     (forall x, pre x h -> (forall c, ~ In x (reg s c)) /\ forall r, x = CR r -> fresh_r s r /\ made (rq s r) = false) /\ (forall r, touches r h -> made (rq s r) = true) /\ forall r a, h <> FDl r a /\ h <> FPf r a) ->
  (forall r, own (rq s' r) = own (rq s r)) -> (forall r, born (rq s' r) = false -> born (rq s r) = false) -> (forall r, made (rq s r) = true -> born (rq s r) = true) ->
  (forall k f r, In f (stk s k) -> pre (CR r) f -> made (rq s r) = false) ->
  (forall r, made (rq s r) = false -> state (rq s' r) = state (rq s r) /\ hc (rq s' r) = hc (rq s r)) -> (forall r, state (rq s' r) = RsPerformed -> state (rq s r) = RsPerformed) ->
  (forall k c r, jb s' k = Some (JNew c r) -> jb s k = Some (JNew c r) \/ cborn (cx s c) = true) -> ranked s' -> tidy s'.
Proof.
  intros T HR HM HC HS HN HO HB HMB HP HU HE HJ RK.
  assert (FR : forall r, made (rq s r) = false -> fresh_r s r -> fresh_r s' r). { intros r M [F1 F2 F3 F4]. destruct (HU r M) as [U1 U2]. split; [intro c; rewrite HR; apply F1|congruence|congruence|]. intros g h I. destruct (HN _ _ I) as [I'|(_ & X & _)]; [now apply (F4 g)|]. intro Q. apply X in Q. congruence. }
  split; trivial.
  - intro c. rewrite HR. apply T.
  - intros k f x I P c. rewrite HR. destruct (HN _ _ I) as [I'|(X & _)]; [now apply (t_pre _ T k f)|]. now apply X.
  - intros k f r I P. destruct (HN _ _ I) as [I'|(X & _)].
    + apply FR; [eapply HP; eauto|now apply (t_prer _ T k f)].
    + destruct (X _ P) as [_ X']. destruct (X' r eq_refl). now apply FR.
  - intros r Q. apply HB in Q. apply FR; [|now apply T]. destruct (made (rq s r)) eqn:M; trivial. apply HMB in M. congruence.
  - intros r c. rewrite HR, HO. apply T.
  - intros r O c. rewrite HR. apply (t_over _ T). destruct O as [O|(g & a & O)]; [left; auto|right; exists g, a]. destruct O as [O|O]; destruct (HN _ _ O) as [I'|(_ & _ & X)]; auto; destruct (X r a) as [X1 X2]; now elim X1 || now elim X2.
  - intros c. rewrite HM. intro M. destruct (t_mu _ T _ M) as (k & x & I). exists k, x. auto.
  - intros r c. rewrite HO. intro Q. apply HC. now apply (t_bc _ T r).
  - intros k c r J. apply HC. destruct (HJ _ _ _ J) as [J'|J']; [eapply t_jc; eauto|exact J'].
Qed.
Lemma move_tidy tr s o s' : move s o s' -> good tr s -> births tr s -> kids tr s -> causes tr s -> tidy s -> tidy s'.
Proof.
  intros M G B K W T. assert (HP : forall k f r, In f (stk s k) -> pre (CR r) f -> made (rq s r) = false) by (intros k f r I P; destruct (pre_job _ _ _ _ _ B I P) as (_ & c & J); now apply (b_born _ _ B) in J).
  assert (RK : forall t, (forall r, own (rq t r) = own (rq s r)) -> (forall r, hc (rq t r) = hc (rq s r)) -> ranked t). { intros t Q1 Q2. destruct (t_rk _ T) as (rc & rr & n & R1 & R2 & R3 & R4). exists rc, rr, n. repeat split; trivial; intros r x; [rewrite Q1; apply R3|rewrite Q2; apply R4]. }
  destruct M as [|k f rest o fs s1 E H|k j o s' E J R|k j f o s1 J C|o s' F].
  - exact T.
  - eapply eff_tidy; eauto.
  - destruct (ret_rq _ _ _ _ _ R) as (ES & EJ & EX & D & P). apply (tidy_frame s); trivial; try (intros r; unfold reg; rewrite EX; auto; fail); try (intro r; apply P).
    + intros g h. now rewrite ES.
    + intros g h. rewrite ES. auto.
    + intros r. destruct (P r) as (_ & _ & _ & _ & ->). trivial.
    + apply B.
    + intros r _. split; apply P.
    + intros r. destruct (P r) as (-> & _). trivial.
    + intros g c r. rewrite EJ. unfold fupd. destruct (Nat.eqb g k); [discriminate|auto].
    + apply RK; intro r; apply P.
  - destruct (calls_stk _ _ _ _ _ _ C) as (ES & EJ & HF & P & D). pose proof (q_jb _ _ G _ J) as E0.
    assert (CX : forall c, reg s1 c = reg s c /\ mu (cx s1 c) = mu (cx s c) /\ (cborn (cx s c) = true -> cborn (cx s1 c) = true)) by (intro c; destruct C; auto; unfold reg; cbn; unfold fupd; destruct (Nat.eqb_spec c d) as [->|]; auto).
    assert (RQ : forall r, own (rq s1 r) = own (rq s r) /\ hc (rq s1 r) = hc (rq s r) /\ (born (rq s1 r) = false -> born (rq s r) = false)) by (intro r; destruct C; auto; cbn; unfold fupd; destruct (Nat.eqb_spec r r0) as [->|]; cbn; repeat split; auto; discriminate).
    apply (tidy_frame s); trivial; try (intro c; apply CX); try (intro r; apply RQ).
    + intros g h. cbn. unfold fupd. rewrite ES. destruct (Nat.eqb_spec g k) as [->|]; [rewrite E0; easy|trivial].
    + intros g h. cbn. unfold fupd. rewrite ES. destruct (Nat.eqb_spec g k) as [->|]; [|auto]. intros [<-|[]]. right. destruct C; cbn [pre touches]; (split; [|split; [try (intros ? []; fail)|split; discriminate]]).
      * intros x ->. assert (FR : fresh_r s r) by (now apply T). split; [apply FR|]. intros q Q. injection Q as <-. split; [exact FR|]. destruct (made (rq s r)) eqn:M; trivial. apply (b_made _ _ B) in M. congruence.
      * intros x ->. split; [|discriminate]. intros p I. apply (w_reg _ _ W) in I. destruct I as (g & I). apply (w_child _ _ W) in I. congruence.
      * intros x [].
      * intros x [].
      * intros x [].
      * intros q <-. assumption.
    + apply B.
    + intros r _. split; [apply P|apply RQ].
    + intros r. cbn. destruct (P r) as (-> & _). trivial.
    + intros g c r. cbn. unfold fupd. rewrite EJ. destruct (Nat.eqb g k); [|auto]. intro Q. right. destruct C; try discriminate. now injection Q as <- <-.
    + apply RK; intro r; apply RQ.
  - assert (ES : stk s' = stk s /\ jb s' = jb s) by (now destruct F). destruct ES as [ES EJ].
    assert (CX : forall c, reg s' c = reg s c /\ mu (cx s' c) = mu (cx s c) /\ (cborn (cx s c) = true -> cborn (cx s' c) = true)) by (intro c; destruct F; auto; unfold reg; cbn; unfold fupd; [destruct (Nat.eqb_spec c c0) as [->|]|destruct (Nat.eqb_spec c x) as [->|]]; auto).
    assert (RQ : forall r, own (rq s' r) = own (rq s r) /\ born (rq s' r) = born (rq s r) /\ (made (rq s r) = false -> state (rq s' r) = state (rq s r) /\ hc (rq s' r) = hc (rq s r)) /\ (state (rq s' r) = RsPerformed -> state (rq s r) = RsPerformed)) by (intro r; destruct F; auto; cbn; unfold fupd; destruct (Nat.eqb_spec r r0) as [->|]; cbn; repeat split; auto; intros; first [congruence|discriminate]).
    apply (tidy_frame s); trivial; try (intro c; apply CX); try (intro r; apply RQ).
    + intros g h. now rewrite ES.
    + intros g h. rewrite ES. auto.
    + intro r. destruct (RQ r) as (_ & -> & _). trivial.
    + apply B.
    + intros g c r. rewrite EJ. auto.
    + destruct F; try (apply RK; intro q; cbn; trivial; unfold fupd; destruct (Nat.eqb_spec q r) as [->|]; reflexivity).
      destruct (t_rk _ T) as (rc & rr & n & R1 & R2 & R3 & R4). exists (fupd rc x n), rr, (S n). split; [|split; [|split]].
      * intro c. unfold fupd. destruct (Nat.eqb c x); [lia|]. specialize (R1 c). lia.
      * intro q. specialize (R2 q). lia.
      * intros q c Q. cbn in Q. assert (Q' : own (rq s q) = Some c) by (revert Q; unfold fupd; destruct (Nat.eqb_spec q r) as [->|]; trivial). unfold fupd. destruct (Nat.eqb_spec c x) as [->|]; [apply (t_bc _ T) in Q'; congruence|now apply R3].
      * intros q y Q. cbn in Q. unfold fupd in *. destruct (Nat.eqb_spec y x) as [->|N]; [apply R2|]. revert Q. destruct (Nat.eqb_spec q r) as [->|]; cbn; intro Q; [congruence|now apply R4].
Qed.
Lemma tidy_init : tidy init.
Proof. split; cbn; try easy; [constructor|]. exists (fun _ => 0%nat), (fun _ => 0%nat), 1%nat. repeat split; cbn; try easy; lia. Qed.
Record allt (tr : list obs) (s : sys) : Prop := { y_good : good tr s; y_births : births tr s; y_kids : kids tr s; y_causes : causes tr s; y_tidy : tidy s }.
Lemma run_tidy es tr s : run init es = (tr, s) -> allt tr s.
Proof.
  revert es tr s. apply run_ind.
  - split; [apply good_init|apply births_init|apply kids_init| |apply tidy_init]. split; cbn; easy.
  - intros tr s o s' [G B K W T] M. split; [eapply move_good|eapply move_births|eapply move_kids|eapply move_causes|eapply move_tidy]; eauto.
Qed.
