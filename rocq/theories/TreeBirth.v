(** How requests come into being: when NewRequest has returned, the request is registered with its context until it is
    completed, or it is complete already. *)
From Coq Require Import ZArith List Bool Arith Lia.
Import ListNotations.
From Verif Require Import RequestModel.
From Verif Require Import TreeModel TreeSpec TreeProofs.
Open Scope Z_scope.

Lemma eff_reg s k f o fs s1 c y : eff s k f o fs s1 -> In y (reg s c) ->
  In y (reg s1 c) \/ (exists r a, y = CR r /\ f = FB2 r a /\ own (rq s r) = Some c) \/ (exists d, y = CX d /\ f = FD1 c d).
Proof.
  destruct 1; intro I; try (now left).
  - left. revert I. unfold reg. cbn. unfold fupd. now destruct (Nat.eqb_spec c c0) as [->|].
  - left. revert I. unfold reg. cbn. unfold fupd. now destruct (Nat.eqb_spec c c0) as [->|].
  - left. destruct (Nat.eq_dec c c0) as [->|N].
    + unfold reg. cbn. rewrite fupd_same. cbn. change (In y (reg (register s c0 x) c0)). apply register_same. now left.
    + unfold reg. cbn. rewrite fupd_other, register_other by exact N. exact I.
  - left. revert I. unfold reg. cbn. unfold fupd. now destruct (Nat.eqb_spec c d) as [->|].
  - destruct (Nat.eq_dec c p) as [->|N]; [|left; unfold reg; now rewrite unregister_other].
    destruct (ceq (CX d) y) eqn:Q; [apply ceq_eq in Q; subst; right; right; eauto|]. left. apply unregister_same; [|exact I]. intros ->. cbn in Q. now rewrite Nat.eqb_refl in Q.
  - destruct (Nat.eq_dec c c0) as [->|N]; [|left; unfold reg; now rewrite unregister_other].
    destruct (ceq (CR r) y) eqn:Q; [apply ceq_eq in Q; subst; right; left; eauto|]. left. apply unregister_same; [|exact I]. intros ->. cbn in Q. now rewrite Nat.eqb_refl in Q.
Qed.
Lemma eff_reg_inv s k f o fs s1 c y : eff s k f o fs s1 -> (In y (reg s1 c) -> In y (reg s c) \/ f = FA1 c y) /\ (In y (mp (cx s1 c)) -> In y (mp (cx s c)) \/ f = FA1 c y).
Proof.
  destruct 1; try (now split; left).
  - unfold reg. cbn. unfold fupd. destruct (Nat.eqb_spec c c0) as [->|]; cbn; auto.
  - unfold reg. cbn. unfold fupd. destruct (Nat.eqb_spec c c0) as [->|]; cbn; auto.
  - destruct (Nat.eq_dec c c0) as [->|N].
    + unfold reg. cbn. rewrite fupd_same. cbn. split; intro I.
      * change (In y (reg (register s c0 x) c0)) in I. apply register_same in I. destruct I as [I| ->]; auto.
      * revert I. unfold register. destruct (_ <? 2)%nat; cbn; rewrite fupd_same; cbn; [auto|]. rewrite in_app_iff. cbn. intuition congruence.
    + unfold reg. cbn. rewrite fupd_other, register_other by exact N. auto.
  - unfold reg. cbn. unfold fupd. destruct (Nat.eqb_spec c d) as [->|]; cbn; auto.
  - destruct (Nat.eq_dec c p) as [->|N]; [|unfold reg; rewrite unregister_other by exact N; auto]. split; intro I; left; now apply unregister_same in I.
  - destruct (Nat.eq_dec c c0) as [->|N]; [|unfold reg; rewrite unregister_other by exact N; auto]. split; intro I; left; now apply unregister_same in I.
Qed.
(** the fields of requests that steps leave alone *)
Lemma eff_rq s k f o fs s1 r : eff s k f o fs s1 ->
  hc (rq s1 r) = hc (rq s r) /\ born (rq s1 r) = born (rq s r) /\ made (rq s1 r) = made (rq s r) /\
  (own (rq s1 r) = own (rq s r) \/ exists c, f = FN0 c r /\ own (rq s1 r) = Some c /\ fs = [FA0 c (CR r)] /\ dead (cx s c) = false).
Proof.
  destruct 1; auto; cbn; rewrite ?register_rq, ?unregister_rq; auto; unfold fupd; destruct (Nat.eqb_spec r r0) as [->|]; cbn; eauto 9.
Qed.
(** and of contexts *)
Lemma eff_cx s k f o fs s1 c : eff s k f o fs s1 -> cborn (cx s1 c) = true \/ cborn (cx s1 c) = cborn (cx s c).
Proof.
  destruct 1; auto; cbn; rewrite ?register_rq, ?unregister_rq; auto; try (unfold fupd; destruct (Nat.eqb_spec c c0) as [->|]; cbn; now auto).
  - destruct (Nat.eq_dec c c0) as [->|N]; [rewrite fupd_same; cbn; right; apply register_same|rewrite fupd_other, register_other by exact N; auto].
  - unfold fupd; destruct (Nat.eqb_spec c d) as [->|]; cbn; now auto.
  - destruct (Nat.eq_dec c p) as [->|N]; [right; apply unregister_same|rewrite unregister_other by exact N; auto].
  - destruct (Nat.eq_dec c c0) as [->|N]; [right; apply unregister_same|rewrite unregister_other by exact N; auto].
Qed.
Lemma eff_dead s k f o fs s1 c : eff s k f o fs s1 -> dead (cx s1 c) = dead (cx s c) \/ (exists w, f = FCas w c) /\ o = [OSet k c] /\ fs = [FL1 c] /\ dead (cx s c) = false /\ dead (cx s1 c) = true.
Proof.
  destruct 1; auto; cbn; auto; try (unfold fupd; destruct (Nat.eqb_spec c c0) as [->|]; cbn; now auto).
  - unfold fupd; destruct (Nat.eqb_spec c c0) as [->|]; cbn; eauto 10.
  - left. destruct (Nat.eq_dec c c0) as [->|N]; [rewrite fupd_same; cbn; apply register_same|now rewrite fupd_other, register_other by exact N].
  - unfold fupd; destruct (Nat.eqb_spec c d) as [->|]; cbn; now auto.
  - left. destruct (Nat.eq_dec c p) as [->|N]; [apply unregister_same|now rewrite unregister_other by exact N].
  - left. destruct (Nat.eq_dec c c0) as [->|N]; [apply unregister_same|now rewrite unregister_other by exact N].
Qed.

Definition fine (tr : list obs) (s : sys) (r : nat) : Prop :=
  delivered tr r <> [] \/ exists c, own (rq s r) = Some c /\ (In (CR r) (reg s c) \/ completing s r).
(** [f] is a step of the completion of r by Cancel *)
Definition ends (r : nat) (f : frame) : Prop :=
  match f with
  | FLk q a | FCk q a | FPr q a | FB1 q a | FR1 q a | FR2 q a | FB2 q a | FDl q a | FPf q a | FUl q a => q = r /\ a = Fail RcCanceled
  | _ => False
  end.
Definition stage (tr : list obs) (s : sys) (k c r : nat) : Prop :=
  stk s k = [FN0 c r] \/ ((stk s k = [FA0 c (CR r)] \/ stk s k = [FA1 c (CR r)]) /\ own (rq s r) = Some c) \/
  (exists pre f, stk s k = pre ++ [f] /\ ends r f) \/ (stk s k = [] /\ fine tr s r).

(** the frames of a call that makes something, and the call *)
Definition makes (f : frame) (j : job) : Prop :=
  match f with
  | FN0 c r => j = JNew c r
  | FC0 c d => j = JChild c d
  | FA0 c (CR r) | FA1 c (CR r) => j = JNew c r
  | FA0 c (CX d) | FA1 c (CX d) => j = JChild c d
  | _ => True
  end.
Definition maker (f : frame) : bool := match f with FN0 _ _ | FC0 _ _ | FA0 _ _ | FA1 _ _ => true | _ => false end.

Record births (tr : list obs) (s : sys) : Prop := {
  b_born : forall k c r, jb s k = Some (JNew c r) -> born (rq s r) = true /\ made (rq s r) = false /\ In (ONew k c r) tr;
  b_uniq : forall k k' c c' r, jb s k = Some (JNew c r) -> jb s k' = Some (JNew c' r) -> k = k';
  b_made : forall r, made (rq s r) = true -> born (rq s r) = true;
  b_makes : forall k f, In f (stk s k) -> maker f = true -> stk s k = [f] /\ exists j, jb s k = Some j /\ makes f j;
  b_stage : forall k c r, jb s k = Some (JNew c r) -> stage tr s k c r;
  b_own : forall r, born (rq s r) = false -> own (rq s r) = None;
  b_job : forall k c r, jb s k = Some (JNew c r) -> own (rq s r) = None \/ own (rq s r) = Some c;
  b_ret : forall k c r, In (ONewRet k c r) tr -> made (rq s r) = true /\ (own (rq s r) = None \/ own (rq s r) = Some c);
  b_fine : forall r, made (rq s r) = true -> fine tr s r }.

Lemma fine_eff tr s k f o fs s1 rest r : stk s k = f :: rest -> eff s k f o fs s1 -> (forall c, f <> FN0 c r) -> fine tr s r -> fine (tr ++ o) (set_stk s1 k (fs ++ rest)) r.
Proof.
  intros E H N [D|(c & O & F)]; [left; rewrite delivered_app; intro Q; apply app_eq_nil in Q; tauto|]. destruct (eff_stk _ _ _ _ _ _ H) as [ES _].
  assert (O' : own (rq s1 r) = Some c) by (destruct (eff_rq _ _ _ _ _ _ r H) as (_ & _ & _ & [Q|(c' & Q & _)]); [congruence|now apply N in Q]).
  destruct F as [F|(g & a & F)].
  - destruct (eff_reg _ _ _ _ _ _ c _ H F) as [F'|[(q & a & Q & -> & _)|(d & Q & _)]]; [|injection Q as <-|discriminate].
    + right. exists c. split; [exact O'|]. left. exact F'.
    + right. exists c. split; [exact O'|]. right. exists k, a. cbn. rewrite fupd_same. apply in_app_iff. left. inversion H; subst; now left.
  - destruct (in_kept _ _ _ _ s1 fs _ _ E ES F) as [[<- ->]|F'].
    + left. inversion H; subst. rewrite delivered_app. cbn. rewrite Nat.eqb_refl. intro Q. now apply app_eq_nil in Q.
    + right. exists c. split; [exact O'|]. right. exists g, a. exact F'.
Qed.
Lemma fine_same tr o s s' r : own (rq s' r) = own (rq s r) -> (forall c, reg s' c = reg s c) -> (forall g f, In f (stk s g) -> In f (stk s' g)) -> fine tr s r -> fine (tr ++ o) s' r.
Proof.
  intros O R K [D|(c & Q & F)]; [left; rewrite delivered_app; intro Q; apply app_eq_nil in Q; tauto|]. right. exists c. rewrite O, R. split; [exact Q|]. destruct F as [F|(g & a & F)]; [now left|right; exists g, a; auto].
Qed.

Lemma ends_eff s k f o fs s1 r : eff s k f o fs s1 -> ends r f -> (exists a, f = FUl r a /\ fs = []) \/ exists pre h, fs = pre ++ [h] /\ ends r h.
Proof.
  destruct 1; cbn [ends]; try easy; intros [-> ->]; try (right; exists []; eexists; split; [reflexivity|]; now split); try (right; eexists [_]; eexists; split; [reflexivity|]; now split).
  left. eauto.
Qed.
Lemma eff_births tr s k f o fs s1 rest : stk s k = f :: rest -> eff s k f o fs s1 -> good tr s -> births tr s -> births (tr ++ o) (set_stk s1 k (fs ++ rest)).
Proof.
  intros E H G B. destruct (eff_stk _ _ _ _ _ _ H) as [ES EJ].
  assert (FN : forall c r, f = FN0 c r -> rest = [] /\ jb s k = Some (JNew c r)).
  { intros c r ->. destruct (b_makes _ _ B k (FN0 c r)) as [Q (j & J & M)]; [rewrite E; now left|reflexivity|]. rewrite E in Q. injection Q as ->. cbn in M. subst. auto. }
  assert (OW : forall r, own (rq s1 r) = own (rq s r) \/ exists c, jb s k = Some (JNew c r) /\ own (rq s1 r) = Some c).
  { intro r. destruct (eff_rq _ _ _ _ _ _ r H) as (_ & _ & _ & [Q|(c & Q & Q' & _)]); [now left|right]. exists c. split; [now apply FN|exact Q']. }
  split; cbn [rq jb set_stk]; rewrite ?EJ.
  - intros g c r J. destruct (eff_rq _ _ _ _ _ _ r H) as (_ & -> & -> & _). destruct (b_born _ _ B _ _ _ J) as (P1 & P2 & P3). rewrite in_app_iff. auto.
  - apply (b_uniq _ _ B).
  - intro r. destruct (eff_rq _ _ _ _ _ _ r H) as (_ & -> & -> & _). apply (b_made _ _ B).
  - intros g f' I M. destruct (in_after _ _ _ _ _ _ _ _ E ES I) as [[-> I']|[I' NR]].
    + cbn [stk set_stk]. rewrite fupd_same. assert (MF : maker f = true /\ fs = [f'] /\ forall j, makes f j -> makes f' j).
      { destruct H; cbn in I'; repeat match goal with H : _ \/ _ |- _ => destruct H as [<-|I'] end; try contradiction; try discriminate; try (destruct x; discriminate); cbn; auto. }
      destruct MF as (MF & -> & MJ). destruct (b_makes _ _ B k f) as [Q (j & J & MK)]; [rewrite E; now left|exact MF|]. rewrite E in Q. injection Q as ->. split; [reflexivity|]. exists j. auto.
    + destruct (b_makes _ _ B g f' I' M) as [Q Q']. split; [|exact Q']. cbn [stk set_stk]. unfold fupd. rewrite ES. destruct (Nat.eqb_spec g k) as [->|]; [|exact Q]. exfalso. rewrite E in Q. injection Q as -> ->. destruct NR as [NR|[]]; now apply NR.
  - intros g c r J. destruct (Nat.eq_dec g k) as [->|N].
    + destruct (b_stage _ _ B _ _ _ J) as [Q|[[Q O]|[(pre & h & Q & EN)|[Q _]]]]; rewrite E in Q; try discriminate.
      * injection Q as -> ->. inversion H; subst.
        -- right. right. left. exists [], (FLk r (Fail RcCanceled)). cbn. rewrite fupd_same. repeat split.
        -- right. left. cbn. rewrite !fupd_same. split; [now left|reflexivity].
      * destruct Q as [Q|Q]; injection Q as -> ->; inversion H; subst.
        -- right. right. left. exists [], (FLk r (Fail RcCanceled)). cbn. rewrite fupd_same. repeat split.
        -- right. left. cbn. rewrite !fupd_same. split; [now right|exact O].
        -- right. right. right. cbn. rewrite fupd_same. split; [reflexivity|]. right. exists c. cbn. rewrite register_rq. split; [exact O|]. left. unfold reg. cbn. rewrite fupd_same. cbn. change (In (CR r) (reg (register s c (CR r)) c)). apply register_same. now right.
      * destruct pre as [|h' pre]; cbn in Q; injection Q as -> ->.
        -- destruct (ends_eff _ _ _ _ _ _ _ H EN) as [(a & -> & ->)|(pre & h' & -> & EN')].
           ++ right. right. right. cbn. rewrite fupd_same. split; [reflexivity|]. left. destruct EN as [_ ->]. rewrite delivered_app. pose proof (q_ul _ _ G r k RcCanceled ltac:(rewrite E; now left) ltac:(discriminate)) as L. intro Q. apply app_eq_nil in Q. destruct Q as [Q _]. now rewrite Q in L.
           ++ right. right. left. exists pre, h'. cbn. rewrite fupd_same, app_nil_r. auto.
        -- right. right. left. exists (fs ++ pre), h. cbn. rewrite fupd_same, app_assoc. auto.
    + assert (NF : forall c', f <> FN0 c' r) by (intros c' Q; apply FN in Q; destruct Q as [_ Q]; now apply N, (b_uniq _ _ B _ _ _ _ _ J Q)).
      assert (O' : own (rq s1 r) = own (rq s r)) by (destruct (OW r) as [Q|(c' & Q & _)]; [exact Q|elim N; now apply (b_uniq _ _ B _ _ _ _ _ J Q)]).
      unfold stage. cbn [stk set_stk rq]. rewrite fupd_other by exact N. rewrite ES, O'. destruct (b_stage _ _ B _ _ _ J) as [Q|[Q|[Q|[Q F]]]]; auto. right. right. right. split; [exact Q|]. eapply fine_eff; eauto.
  - intro r. destruct (eff_rq _ _ _ _ _ _ r H) as (_ & -> & _ & _). intro Q. destruct (OW r) as [->|(c' & J & _)]; [now apply (b_own _ _ B)|]. apply (b_born _ _ B) in J. destruct J. congruence.
  - intros g c r J. destruct (OW r) as [->|(c' & J' & ->)]; [now apply (b_job _ _ B g)|]. right. pose proof (b_uniq _ _ B _ _ _ _ _ J J') as ->. congruence.
  - intros g c r I. assert (I' : In (ONewRet g c r) tr) by (apply in_app_iff in I; destruct I as [I|I]; [exact I|exfalso; destruct H; cbn in I; intuition discriminate]).
    destruct (eff_rq _ _ _ _ _ _ r H) as (_ & _ & -> & _). destruct (b_ret _ _ B _ _ _ I') as [M O]. split; [exact M|]. destruct (OW r) as [->|(c' & J' & _)]; [exact O|]. apply (b_born _ _ B) in J'. destruct J' as (_ & J' & _). congruence.
  - intro r. destruct (eff_rq _ _ _ _ _ _ r H) as (_ & _ & -> & _). intro M. eapply fine_eff; eauto; [|now apply (b_fine _ _ B)]. intros c Q. apply FN in Q. destruct Q as [_ Q]. apply (b_born _ _ B) in Q. destruct Q as (_ & Q & _). congruence.
Qed.

Lemma move_births tr s o s' : move s o s' -> good tr s -> births tr s -> births (tr ++ o) s'.
Proof.
  intros M G B. destruct M as [|k f rest o fs s1 E H|k j o s' E J R|k j f o s1 J C|o s' F].
  - now rewrite app_nil_r.
  - eapply eff_births; eauto.
  - destruct (ret_rq _ _ _ _ _ R) as (ES & EJ & EX & D & P).
    assert (MD : forall r, made (rq s' r) = made (rq s r) \/ exists c, j = JNew c r /\ made (rq s' r) = true).
    { intro r. destruct j as [c q| | | |]; cbn in R; injection R as <- <-; cbn; auto. unfold fupd. destruct (Nat.eqb_spec r q) as [->|]; cbn; eauto. }
    assert (FS : forall r, fine tr s r -> fine (tr ++ o) s' r). { intro r. apply fine_same; [apply P|intro c; unfold reg; now rewrite EX|now rewrite ES]. }
    assert (JB : forall g j', jb s' g = Some j' -> g <> k /\ jb s g = Some j'). { intros g j'. rewrite EJ. unfold fupd. destruct (Nat.eqb_spec g k); [discriminate|auto]. }
    split.
    + intros g c r Q. apply JB in Q. destruct Q as [N Q]. destruct (P r) as (_ & _ & _ & _ & ->). destruct (b_born _ _ B _ _ _ Q) as (P1 & P2 & P3). rewrite in_app_iff. repeat split; auto. destruct (MD r) as [->|(c' & -> & _)]; [exact P2|]. elim N. now apply (b_uniq _ _ B _ _ _ _ _ Q J).
    + intros g g' c c' r Q Q'. apply JB in Q, Q'. now apply (b_uniq _ _ B g g' c c' r).
    + intro r. destruct (P r) as (_ & _ & _ & _ & ->). destruct (MD r) as [->|(c & -> & _)]; [apply (b_made _ _ B)|intros _; now apply (b_born _ _ B) in J].
    + intros g f I MK. rewrite ES in *. destruct (b_makes _ _ B g f I MK) as [Q (j' & Q' & Q'')]. split; [exact Q|]. exists j'. split; [|exact Q'']. rewrite EJ, fupd_other; [exact Q'|]. intros ->. rewrite E in I. destruct I.
    + intros g c r Q. apply JB in Q. destruct Q as [N Q]. unfold stage. rewrite ES. destruct (P r) as (_ & _ & -> & _). destruct (b_stage _ _ B _ _ _ Q) as [S|[S|[S|[S S']]]]; auto 6.
    + intro r. destruct (P r) as (_ & _ & -> & _ & ->). apply (b_own _ _ B).
    + intros g c r Q. apply JB in Q. destruct (P r) as (_ & _ & -> & _). now apply (b_job _ _ B g).
    + intros g c r I. destruct (P r) as (_ & _ & -> & _). apply in_app_iff in I. destruct I as [I|I].
      * destruct (b_ret _ _ B _ _ _ I) as [Q O]. split; [|exact O]. destruct (MD r) as [->|(c' & _ & Q')]; assumption.
      * destruct j as [c' q| | | |]; cbn in R; injection R as <- <-; cbn in I; try (intuition discriminate). destruct I as [I|[]]. injection I as -> -> ->. split; [cbn; now rewrite fupd_same|now apply (b_job _ _ B g)].
    + intros r Q. apply FS. destruct (MD r) as [Q'|(c & -> & _)]; [rewrite Q' in Q; now apply (b_fine _ _ B)|]. destruct (b_stage _ _ B _ _ _ J) as [S|[[[S|S] _]|[(pre & h & S & _)|[_ S]]]]; trivial; rewrite E in S; try discriminate. now destruct pre.
  - destruct (calls_stk _ _ _ _ _ _ C) as (ES & EJ & HF & P & D). pose proof (q_jb _ _ G _ J) as E.
    assert (RQ : forall r, own (rq s1 r) = own (rq s r) /\ made (rq s1 r) = made (rq s r) /\ (born (rq s r) = true -> born (rq s1 r) = true) /\ (born (rq s1 r) = false -> born (rq s r) = false) /\ forall c, reg s1 c = reg s c).
    { intro r. assert (RG : forall c, reg s1 c = reg s c) by (intro c; destruct C; trivial; unfold reg; cbn; unfold fupd; now destruct (Nat.eqb_spec c d) as [->|]). destruct C; cbn in *; auto 6. unfold fupd. destruct (Nat.eqb_spec r r0) as [->|]; cbn; auto 6. }
    assert (JB : forall g j', fupd (jb s1) k (Some j) g = Some j' -> g = k /\ j' = j \/ g <> k /\ jb s g = Some j'). { intros g j'. rewrite EJ. unfold fupd. destruct (Nat.eqb_spec g k); [intro Q; injection Q as <-; auto|auto]. }
    assert (NW : forall c r, j = JNew c r -> born (rq s r) = false /\ born (rq s1 r) = true /\ f = FN0 c r /\ o = [ONew k c r]). { intros c r ->. inversion C; subst. cbn. rewrite fupd_same. auto. }
    assert (FS : forall r, fine tr s r -> fine (tr ++ o) (set_stk (set_jb s1 k (Some j)) k [f]) r).
    { intro r. apply fine_same; [apply RQ|apply RQ, r|]. intros g h I. cbn. unfold fupd. destruct (Nat.eqb_spec g k) as [->|]; [rewrite E in I; destruct I|now rewrite ES]. }
    split; cbn [rq jb set_stk set_jb].
    + intros g c r Q. destruct (RQ r) as (_ & -> & RB & _). apply JB in Q. destruct Q as [[-> Q]|[N Q]].
      * symmetry in Q. destruct (NW _ _ Q) as (Q1 & Q2 & _ & ->). split; [exact Q2|]. split; [|apply in_app_iff; right; now left]. destruct (made (rq s r)) eqn:Q3; [|reflexivity]. apply (b_made _ _ B) in Q3. congruence.
      * destruct (b_born _ _ B _ _ _ Q) as (P1 & P2 & P3). rewrite in_app_iff. auto.
    + intros g g' c c' r Q Q'. apply JB in Q, Q'. destruct Q as [[-> Q]|[N Q]], Q' as [[-> Q']|[N' Q']]; trivial.
      * symmetry in Q. apply NW in Q. apply (b_born _ _ B) in Q'. destruct Q, Q'. congruence.
      * symmetry in Q'. apply NW in Q'. apply (b_born _ _ B) in Q. destruct Q, Q'. congruence.
      * now apply (b_uniq _ _ B g g' c c' r).
    + intro r. destruct (RQ r) as (_ & -> & RB & _). intro Q. now apply RB, (b_made _ _ B).
    + intros g h I MK. cbn [stk set_stk] in *. unfold fupd in *. destruct (Nat.eqb g k) eqn:GK.
      * destruct I as [<-|[]]. split; [reflexivity|]. exists j. split; [reflexivity|]. destruct C; try discriminate; reflexivity.
      * cbn [stk set_jb] in *. rewrite ES in *. destruct (b_makes _ _ B g h I MK) as [Q (j' & Q' & Q'')]. split; [exact Q|]. exists j'. rewrite EJ. auto.
    + intros g c r Q. apply JB in Q. destruct Q as [[-> Q]|[N Q]].
      * symmetry in Q. destruct (NW _ _ Q) as (_ & _ & -> & _). left. cbn. now rewrite fupd_same.
      * unfold stage. cbn [stk set_stk rq set_jb]. rewrite fupd_other by exact N. cbn [stk set_jb]. rewrite ES. destruct (RQ r) as (-> & _). destruct (b_stage _ _ B _ _ _ Q) as [S|[S|[S|[S S']]]]; auto 6.
    + intro r. destruct (RQ r) as (-> & _ & _ & RB & _). intro Q. now apply (b_own _ _ B), RB.
    + intros g c r Q. destruct (RQ r) as (-> & _). apply JB in Q. destruct Q as [[-> Q]|[N Q]]; [|now apply (b_job _ _ B g)]. symmetry in Q. apply NW in Q. left. now apply (b_own _ _ B).
    + intros g c r I. destruct (RQ r) as (-> & -> & _). apply (b_ret _ _ B g c r). apply in_app_iff in I. destruct I as [I|I]; [exact I|]. exfalso. destruct C; cbn in I; intuition discriminate.
    + intros r Q. destruct (RQ r) as (_ & Q' & _). rewrite Q' in Q. now apply FS, (b_fine _ _ B).
  - assert (RQ : stk s' = stk s /\ jb s' = jb s /\ forall r, own (rq s' r) = own (rq s r) /\ made (rq s' r) = made (rq s r) /\ born (rq s' r) = born (rq s r)).
    { destruct F; (split; [reflexivity|]); (split; [reflexivity|]); intro q; cbn; unfold fupd; auto; destruct (Nat.eqb_spec q r) as [->|]; auto. }
    assert (RG : forall c, reg s' c = reg s c). { intro q. destruct F; trivial; unfold reg; cbn; unfold fupd; [destruct (Nat.eqb_spec q c) as [->|]|destruct (Nat.eqb_spec q x) as [->|]]; reflexivity. }
    destruct RQ as (ES & EJ & RQ). assert (FS : forall r, fine tr s r -> fine (tr ++ o) s' r) by (intro r; apply fine_same; [apply RQ|apply RG|now rewrite ES]).
    split; rewrite ?EJ.
    + intros g c r Q. destruct (RQ r) as (_ & -> & ->). destruct (b_born _ _ B _ _ _ Q) as (P1 & P2 & P3). rewrite in_app_iff. auto.
    + apply (b_uniq _ _ B).
    + intro r. destruct (RQ r) as (_ & -> & ->). apply (b_made _ _ B).
    + rewrite ES. apply (b_makes _ _ B).
    + intros g c r Q. unfold stage. rewrite ES. destruct (RQ r) as (-> & _). destruct (b_stage _ _ B _ _ _ Q) as [S|[S|[S|[S S']]]]; auto 6.
    + intro r. destruct (RQ r) as (-> & _ & ->). apply (b_own _ _ B).
    + intros g c r Q. destruct (RQ r) as (-> & _). now apply (b_job _ _ B g).
    + intros g c r I. destruct (RQ r) as (-> & -> & _). apply (b_ret _ _ B g c r). apply in_app_iff in I. destruct I as [I|I]; [exact I|]. exfalso. destruct F; cbn in I; intuition discriminate.
    + intros r Q. destruct (RQ r) as (_ & Q' & _). rewrite Q' in Q. now apply FS, (b_fine _ _ B).
Qed.
Lemma births_init : births [] init.
Proof. split; cbn; easy. Qed.
