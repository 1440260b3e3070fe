(** What a cancellation reaches: the contexts of handlers, children, and everything registered. *)
From Coq Require Import ZArith List Bool Arith Lia.
Import ListNotations.
From Verif Require Import RequestModel.
From Verif Require Import TreeModel TreeSpec TreeProofs TreeBirth.
Open Scope Z_scope.

(** ** children and handlers *)
Definition kept (tr : list obs) (s : sys) (c d : nat) : Prop := dead (cx s d) = true \/ In (CX d) (reg s c) \/ In (ODone d) tr.
Definition cstage (tr : list obs) (s : sys) (k c d : nat) : Prop :=
  stk s k = [FC0 c d] \/ stk s k = [FA0 c (CX d)] \/ stk s k = [FA1 c (CX d)] \/ stk s k = [FCas CxCanceled d] \/ kept tr s c d.
Record kids (tr : list obs) (s : sys) : Prop := {
  h_dead : forall c, dead (cx s c) = true <-> exists k, In (OSet k c) tr;
  h_job : forall k c d, jb s k = Some (JChild c d) -> cborn (cx s d) = true /\ In (OChild k c d) tr /\ forall k' c', ~ In (OChildRet k' c' d) tr;
  h_uniq : forall k k' c c' d, jb s k = Some (JChild c d) -> jb s k' = Some (JChild c' d) -> k = k';
  h_born : forall k c d, In (OChildRet k c d) tr -> cborn (cx s d) = true;
  h_stage : forall k c d, jb s k = Some (JChild c d) -> cstage tr s k c d;
  h_kept : forall k c d, In (OChildRet k c d) tr -> kept tr s c d;
  h_hc : forall r x, hc (rq s r) = Some x <-> In (OHandle r x) tr;
  h_par : forall r x, hc (rq s r) = Some x -> par (cx s x) = None /\ cborn (cx s x) = true;
  h_d0 : forall k d, In (FD0 d) (stk s k) -> In (ODone d) tr \/ par (cx s d) = None /\ cborn (cx s d) = true;
  h_d1 : forall k p d, In (FD1 p d) (stk s k) -> In (ODone d) tr;
  h_st : forall r x, hc (rq s r) = Some x -> state (rq s r) <> RsNew /\ (state (rq s r) = RsPending -> exists g a, In (FR2 r a) (stk s g));
  h_b2 : forall k r a x, In (FB2 r a) (stk s k) -> code_of a = RcCanceled -> hc (rq s r) = Some x ->
         dead (cx s x) = true \/ exists pre post, stk s k = pre ++ FCas CxCanceled x :: FB2 r a :: post;
  h_dl : forall k r a x, In (FDl r a) (stk s k) -> code_of a = RcCanceled -> hc (rq s r) = Some x -> dead (cx s x) = true;
  h_del : forall r x, In (ODeliver r RcCanceled) tr -> hc (rq s r) = Some x -> dead (cx s x) = true }.

Lemma eff_par s k f o fs s1 c : eff s k f o fs s1 -> (par (cx s1 c) = par (cx s c) /\ cborn (cx s1 c) = cborn (cx s c)) \/ par (cx s1 c) = None /\ cborn (cx s1 c) = true.
Proof.
  destruct 1; auto; cbn; auto; try (unfold fupd; destruct (Nat.eqb_spec c c0) as [->|]; cbn; now auto).
  - left. destruct (Nat.eq_dec c c0) as [->|N]; [rewrite fupd_same; cbn; destruct (register_same s c0 x) as (_ & ? & ? & _); auto|now rewrite fupd_other, register_other by exact N].
  - unfold fupd; destruct (Nat.eqb_spec c d) as [->|]; cbn; now auto.
  - left. destruct (Nat.eq_dec c p) as [->|N]; [destruct (unregister_same s p (CX d)) as (_ & ? & ? & _); auto|now rewrite unregister_other by exact N].
  - left. destruct (Nat.eq_dec c c0) as [->|N]; [destruct (unregister_same s c0 (CR r)) as (_ & ? & ? & _); auto|now rewrite unregister_other by exact N].
Qed.
Lemma kept_eff tr s k f o fs s1 rest c d : stk s k = f :: rest -> eff s k f o fs s1 -> kids tr s -> kept tr s c d -> kept (tr ++ o) (set_stk s1 k (fs ++ rest)) c d.
Proof.
  intros E H K [D|[I|I]]; unfold kept; rewrite in_app_iff; auto.
  - left. cbn. destruct (eff_dead _ _ _ _ _ _ d H) as [Q|(_ & _ & _ & _ & Q)]; congruence.
  - destruct (eff_reg _ _ _ _ _ _ _ _ H I) as [Q|[(r & a & Q & _)|(d' & Q & ->)]]; [right; left; exact Q|discriminate|]. injection Q as <-. right. right. left. apply (h_d1 _ _ K k c d). rewrite E. now left.
Qed.
Lemma eff_kids tr s k f o fs s1 rest : stk s k = f :: rest -> eff s k f o fs s1 -> good tr s -> births tr s -> kids tr s -> kids (tr ++ o) (set_stk s1 k (fs ++ rest)).
Proof.
  intros E H G B K. destruct (eff_stk _ _ _ _ _ _ H) as [ES EJ].
  assert (NO : forall b, In b o -> match b with OSet _ _ | ODeliver _ _ => True | _ => False end) by (destruct H; cbn; intuition subst; trivial).
  assert (DD : forall c, dead (cx s c) = true -> dead (cx s1 c) = true) by (intros c Q; destruct (eff_dead _ _ _ _ _ _ c H) as [Q'|(_ & _ & _ & _ & Q')]; congruence).
  assert (TOP : In f (stk s k)) by (rewrite E; now left).
  split; cbn [rq jb cx set_stk]; rewrite ?EJ.
  - intro c. split.
    + intro D. destruct (eff_dead _ _ _ _ _ _ c H) as [Q|(_ & -> & _)]; [|exists k; apply in_app_iff; right; now left]. rewrite Q in D. apply (h_dead _ _ K) in D. destruct D as (g & D). exists g. apply in_app_iff. now left.
    + intros (g & I). apply in_app_iff in I. destruct I as [I|I]; [apply DD, (h_dead _ _ K); eauto|]. destruct H; cbn in I; try contradiction; destruct I as [I|[]]; try discriminate. injection I as -> ->. cbn. now rewrite fupd_same.
  - intros g c d J. destruct (h_job _ _ K _ _ _ J) as (P1 & P2 & P3). split; [destruct (eff_cx _ _ _ _ _ _ d H); congruence|]. split; [apply in_app_iff; now left|]. intros g' c' I. apply in_app_iff in I. destruct I as [I|I]; [now apply P3 in I|now apply NO in I].
  - apply (h_uniq _ _ K).
  - intros g c d I. apply in_app_iff in I. destruct I as [I|I]; [|now apply NO in I]. apply (h_born _ _ K) in I. destruct (eff_cx _ _ _ _ _ _ d H); congruence.
  - intros g c d J. unfold cstage. cbn [stk set_stk]. destruct (Nat.eq_dec g k) as [->|N].
    + rewrite fupd_same. destruct (h_stage _ _ K _ _ _ J) as [Q|[Q|[Q|[Q|Q]]]]; [| | | |right; right; right; right; eapply kept_eff; eauto]; rewrite E in Q; injection Q as -> ->; inversion H; subst; cbn; auto 6.
      * right. right. right. right. right. left. unfold reg. cbn. rewrite fupd_same. cbn. change (In (CX d) (reg (register s c (CX d)) c)). apply register_same. now right.
      * right. right. right. right. left. match goal with X : dead _ = true |- _ => exact X end.
      * right. right. right. right. left. cbn. now rewrite fupd_same.
    + rewrite fupd_other by exact N. rewrite ES. destruct (h_stage _ _ K _ _ _ J) as [Q|[Q|[Q|[Q|Q]]]]; auto 6. right. right. right. right. eapply kept_eff; eauto.
  - intros g c d I. apply in_app_iff in I. destruct I as [I|I]; [|now apply NO in I]. eapply kept_eff; eauto. eapply h_kept; eauto.
  - intros r x. destruct (eff_rq _ _ _ _ _ _ r H) as (-> & _). rewrite (h_hc _ _ K), in_app_iff. split; [now left|]. intros [I|I]; [exact I|now apply NO in I].
  - intros r x Q. destruct (eff_rq _ _ _ _ _ _ r H) as (Q' & _). rewrite Q' in Q. apply (h_par _ _ K) in Q. destruct (eff_par _ _ _ _ _ _ x H) as [[-> ->]|[-> ->]]; auto.
  - intros g d I. rewrite in_app_iff. destruct (in_after _ _ _ _ _ _ _ _ E ES I) as [[-> I']|[I' _]].
    + right. destruct H; cbn in I'; repeat match goal with H : _ \/ _ |- _ => destruct H as [I'|I'] end; try contradiction; try discriminate; try (destruct x; discriminate). injection I' as ->. apply (h_par _ _ K) in H. exact H.
    + destruct (h_d0 _ _ K _ _ I') as [Q|Q]; [auto|]. right. destruct (eff_par _ _ _ _ _ _ d H) as [[-> ->]|[-> ->]]; auto.
  - intros g p d I. rewrite in_app_iff. left. destruct (in_after _ _ _ _ _ _ _ _ E ES I) as [[-> I']|[I' _]]; [|now apply (h_d1 _ _ K g p)].
    destruct H; cbn in I'; repeat match goal with H : _ \/ _ |- _ => destruct H as [I'|I'] end; try contradiction; try discriminate; try (destruct x; discriminate). injection I' as -> ->. destruct (h_d0 _ _ K k d TOP) as [Q|[Q _]]; [exact Q|congruence].
  - intros r x Q. destruct (eff_rq _ _ _ _ _ _ r H) as (Q' & _). rewrite Q' in Q. destruct (h_st _ _ K _ _ Q) as [S1 S2].
    destruct (eff_state _ _ _ _ _ _ r H) as [ST|(_ & _ & [(_ & _ & ->)|[((a & ->) & ->)|[(_ & ->)|(_ & ->)]]])]; try (split; discriminate).
    + rewrite ST. split; [exact S1|]. intro P. destruct (S2 P) as (g & a & I). destruct (in_kept _ _ _ _ s1 fs _ _ E ES I) as [[<- ->]|I']; [|eauto]. exfalso.
      assert (state (rq s1 r) = RsInFly) by (inversion H; subst; [cbn; now rewrite fupd_same|contradiction]).
      rewrite ST, P in *. discriminate.
    + split; [discriminate|]. intros _. exists k, a. inversion H; subst. cbn. rewrite fupd_same. now left.
  - intros g r a x I CA Q. destruct (eff_rq _ _ _ _ _ _ r H) as (Q' & _). rewrite Q' in Q. cbn [stk set_stk]. destruct (in_after _ _ _ _ _ _ _ _ E ES I) as [[-> I']|[I' NR]].
    + rewrite fupd_same. destruct H; cbn in I'; repeat match goal with H : _ \/ _ |- _ => destruct H as [I'|I'] end; try contradiction; try discriminate; try (destruct x0; discriminate); injection I' as -> ->; try congruence. right. exists [], rest. assert (x0 = x) as -> by congruence. reflexivity.
    + destruct (h_b2 _ _ K _ _ _ _ I' CA Q) as [D|(pre & post & P)]; [left; now apply DD|]. destruct (Nat.eq_dec g k) as [->|N]; [|right; rewrite fupd_other, ES by exact N; eauto]. rewrite fupd_same. rewrite E in P. destruct pre as [|h pre]; cbn in P; injection P as -> ->.
      * left. destruct (eff_dead _ _ _ _ _ _ x H) as [D|(_ & _ & _ & _ & D)]; [|exact D]. inversion H; subst; trivial. cbn. now rewrite fupd_same.
      * right. exists (fs ++ pre), post. now rewrite app_assoc.
  - intros g r a x I CA Q. destruct (eff_rq _ _ _ _ _ _ r H) as (Q' & _). rewrite Q' in Q. destruct (in_after _ _ _ _ _ _ _ _ E ES I) as [[-> I']|[I' _]]; [|apply DD; eapply h_dl; eauto].
    assert (f = FB2 r a) as -> by (destruct H; cbn in I'; repeat match goal with H : _ \/ _ |- _ => destruct H as [I'|I'] end; try contradiction; try discriminate; try (destruct x0; discriminate); injection I' as -> ->; reflexivity).
    apply DD. destruct (h_b2 _ _ K _ _ _ _ TOP CA Q) as [D|(pre & post & P)]; [exact D|]. exfalso. rewrite E in P. destruct pre as [|h pre]; cbn in P; [discriminate|]. injection P as _ ->.
    assert (HK : hold r (FB2 r a) = 1%nat) by (cbn; now rewrite Nat.eqb_refl). destruct (holder_unique _ _ _ _ _ _ _ (q_locks _ _ G) E HK TOP HK) as (_ & _ & N). apply N. apply in_app_iff. right. right. now left.
  - intros r x I Q. destruct (eff_rq _ _ _ _ _ _ r H) as (Q' & _). rewrite Q' in Q. apply DD. apply in_app_iff in I. destruct I as [I|I]; [now apply (h_del _ _ K r)|].
    destruct H; cbn in I; try contradiction; destruct I as [I|[]]; try discriminate. injection I as -> CA. now apply (h_dl _ _ K k r a).
Qed.

Lemma kept_same tr o s s' c d : dead (cx s' d) = dead (cx s d) -> reg s' c = reg s c -> kept tr s c d -> kept (tr ++ o) s' c d.
Proof. unfold kept. intros -> ->. rewrite in_app_iff. tauto. Qed.
Lemma no_holder s r : locks s -> lock (rq s r) = None -> forall g f, In f (stk s g) -> hold r f <> 1%nat.
Proof. intros L N g f I H. pose proof (L r g) as Q. rewrite N in Q. pose proof (cnt_in _ _ _ I H). cbn in Q. lia. Qed.
Lemma in_in {A} (l : list A) x : In x l -> l <> [].
Proof. destruct l; [easy|discriminate]. Qed.
Lemma delivered_in tr r v : In (ODeliver r v) tr -> delivered tr r <> [].
Proof. intro I. apply in_in with (x := v). apply in_flat_map. exists (ODeliver r v). split; [exact I|]. rewrite Nat.eqb_refl. now left. Qed.
Lemma move_kids tr s o s' : move s o s' -> good tr s -> births tr s -> kids tr s -> kids (tr ++ o) s'.
Proof.
  intros M G B K. destruct M as [|k f rest o fs s1 E H|k j o s' E J R|k j f o s1 J C|o s' F].
  - now rewrite app_nil_r.
  - eapply eff_kids; eauto.
  - destruct (ret_rq _ _ _ _ _ R) as (ES & EJ & EX & D & P).
    assert (NO : forall b, In b o -> match b with ONewRet _ _ _ | OCancelRet _ _ => True | OChildRet k' c d => k' = k /\ j = JChild c d | _ => False end) by (destruct j; cbn in R; injection R as <- <-; cbn; intuition subst; auto).
    assert (JB : forall g j', jb s' g = Some j' -> g <> k /\ jb s g = Some j'). { intros g j'. rewrite EJ. unfold fupd. destruct (Nat.eqb_spec g k); [discriminate|auto]. }
    assert (KP : forall c d, kept tr s c d -> kept (tr ++ o) s' c d) by (intros c d; apply kept_same; unfold reg; now rewrite EX).
    split; rewrite ?ES; rewrite ?EX.
    + intro c. rewrite (h_dead _ _ K). split; intros (g & I); exists g; [apply in_app_iff; now left|]. apply in_app_iff in I. destruct I as [I|I]; [exact I|now apply NO in I].
    + intros g c d Q. apply JB in Q. destruct Q as [N Q]. destruct (h_job _ _ K _ _ _ Q) as (P1 & P2 & P3). split; [exact P1|]. split; [apply in_app_iff; now left|]. intros g' c' I. apply in_app_iff in I. destruct I as [I|I]; [now apply P3 in I|]. apply NO in I. destruct I as [-> ->]. apply N. now apply (h_uniq _ _ K _ _ _ _ _ Q J).
    + intros g g' c c' d Q Q'. apply JB in Q, Q'. now apply (h_uniq _ _ K g g' c c' d).
    + intros g c d I. apply in_app_iff in I. destruct I as [I|I]; [now apply (h_born _ _ K) in I|]. apply NO in I. destruct I as [-> ->]. now apply (h_job _ _ K) in J.
    + intros g c d Q. apply JB in Q. destruct Q as [N Q]. unfold cstage. rewrite ES. destruct (h_stage _ _ K _ _ _ Q) as [S|[S|[S|[S|S]]]]; auto 6.
    + intros g c d I. apply in_app_iff in I. destruct I as [I|I]; [apply KP; eapply h_kept; eauto|]. apply NO in I. destruct I as [-> ->]. apply KP. destruct (h_stage _ _ K _ _ _ J) as [S|[S|[S|[S|S]]]]; trivial; rewrite E in S; discriminate.
    + intros r x. destruct (P r) as (_ & _ & _ & -> & _). rewrite (h_hc _ _ K), in_app_iff. split; [now left|]. intros [I|I]; [exact I|now apply NO in I].
    + intros r x. destruct (P r) as (_ & _ & _ & -> & _). apply (h_par _ _ K).
    + intros g d I. rewrite in_app_iff. destruct (h_d0 _ _ K _ _ I); auto.
    + intros g p d I. rewrite in_app_iff. left. eapply h_d1; eauto.
    + intros r x. destruct (P r) as (-> & _ & _ & -> & _). apply (h_st _ _ K).
    + intros g r a x. destruct (P r) as (_ & _ & _ & -> & _). apply (h_b2 _ _ K).
    + intros g r a x. destruct (P r) as (_ & _ & _ & -> & _). apply (h_dl _ _ K g).
    + intros r x I. destruct (P r) as (_ & _ & _ & -> & _). apply (h_del _ _ K). apply in_app_iff in I. destruct I as [I|I]; [exact I|now apply NO in I].
  - destruct (calls_stk _ _ _ _ _ _ C) as (ES & EJ & HF & P & D). pose proof (q_jb _ _ G _ J) as E.
    assert (RQ : forall r, hc (rq s1 r) = hc (rq s r)) by (intro r; destruct C; trivial; cbn; unfold fupd; now destruct (Nat.eqb_spec r r0) as [->|]).
    assert (CX : forall c, dead (cx s1 c) = dead (cx s c) /\ reg s1 c = reg s c /\ (cborn (cx s c) = true -> par (cx s1 c) = par (cx s c) /\ cborn (cx s1 c) = true)).
    { intro c. destruct C as [c0 r B1 B2|c0 d B1 B2|c0|d|r a M]; try (now repeat split). unfold reg. cbn. unfold fupd. destruct (Nat.eqb_spec c d) as [->|]; cbn; (split; [reflexivity|split; [reflexivity|]]); intro Q; try (exfalso; congruence); auto. }
    assert (JB : forall g j', fupd (jb s1) k (Some j) g = Some j' -> g = k /\ j' = j \/ g <> k /\ jb s g = Some j'). { intros g j'. rewrite EJ. unfold fupd. destruct (Nat.eqb_spec g k); [intro Q; injection Q as <-; auto|auto]. }
    assert (NW : forall c d, j = JChild c d -> cborn (cx s d) = false /\ cborn (cx s1 d) = true /\ f = FC0 c d /\ o = [OChild k c d]). { intros c d ->. inversion C; subst. cbn. rewrite fupd_same. auto. }
    assert (NO : forall b, In b o -> match b with OSet _ _ | OChildRet _ _ _ | OHandle _ _ | ODeliver _ _ => False | _ => True end) by (destruct C; cbn; intuition subst; auto).
    assert (KP : forall c d, kept tr s c d -> kept (tr ++ o) (set_stk (set_jb s1 k (Some j)) k [f]) c d) by (intros c d; apply kept_same; [apply CX|apply (CX c)]).
    assert (ST : forall g h, In h (fupd (stk s1) k [f] g) -> g = k /\ h = f \/ In h (stk s g)). { intros g h. unfold fupd. rewrite ES. destruct (Nat.eqb_spec g k) as [->|]; [intros [<-|[]]; auto|auto]. }
    assert (SK : forall g h, In h (stk s g) -> fupd (stk s1) k [f] g = stk s g). { intros g h I. unfold fupd. rewrite ES. destruct (Nat.eqb_spec g k) as [->|]; [rewrite E in I; destruct I|reflexivity]. }
    split; cbn [rq jb cx stk set_stk set_jb].
    + intro c. destruct (CX c) as (-> & _). rewrite (h_dead _ _ K). split; intros (g & I); exists g; [apply in_app_iff; now left|]. apply in_app_iff in I. destruct I as [I|I]; [exact I|now apply NO in I].
    + intros g c d Q. apply JB in Q. destruct Q as [[-> Q]|[N Q]].
      * symmetry in Q. destruct (NW _ _ Q) as (Q1 & Q2 & _ & ->). split; [exact Q2|]. split; [apply in_app_iff; right; now left|]. intros g' c' I. apply in_app_iff in I. destruct I as [I|[I|[]]]; [|discriminate]. apply (h_born _ _ K) in I. congruence.
      * destruct (h_job _ _ K _ _ _ Q) as (P1 & P2 & P3). split; [now apply CX|]. split; [apply in_app_iff; now left|]. intros g' c' I. apply in_app_iff in I. destruct I as [I|I]; [now apply P3 in I|now apply NO in I].
    + intros g g' c c' d Q Q'. apply JB in Q, Q'. destruct Q as [[-> Q]|[N Q]], Q' as [[-> Q']|[N' Q']]; trivial.
      * symmetry in Q. apply NW in Q. apply (h_job _ _ K) in Q'. destruct Q, Q'. congruence.
      * symmetry in Q'. apply NW in Q'. apply (h_job _ _ K) in Q. destruct Q, Q'. congruence.
      * now apply (h_uniq _ _ K g g' c c' d).
    + intros g c d I. apply in_app_iff in I. destruct I as [I|I]; [apply (h_born _ _ K) in I; now apply CX|now apply NO in I].
    + intros g c d Q. unfold cstage. cbn [stk set_stk set_jb]. apply JB in Q. destruct Q as [[-> Q]|[N Q]].
      * symmetry in Q. destruct (NW _ _ Q) as (_ & _ & -> & _). left. now rewrite fupd_same.
      * rewrite fupd_other by exact N. cbn [stk set_jb]. rewrite ES. destruct (h_stage _ _ K _ _ _ Q) as [S|[S|[S|[S|S]]]]; auto 6.
    + intros g c d I. apply in_app_iff in I. destruct I as [I|I]; [apply KP; eapply h_kept; eauto|now apply NO in I].
    + intros r x. rewrite RQ, (h_hc _ _ K), in_app_iff. split; [now left|]. intros [I|I]; [exact I|now apply NO in I].
    + intros r x. rewrite RQ. intro Q. apply (h_par _ _ K) in Q. destruct Q as [Q1 Q2]. destruct (CX x) as (_ & _ & Q). destruct (Q Q2) as [-> ->]. auto.
    + intros g d I. rewrite in_app_iff. apply ST in I. destruct I as [[-> I]|I].
      * left. right. destruct C; try discriminate. injection I as ->. now left.
      * destruct (h_d0 _ _ K _ _ I) as [Q|[Q1 Q2]]; [auto|]. right. destruct (CX d) as (_ & _ & Q). destruct (Q Q2) as [-> ->]. auto.
    + intros g p d I. rewrite in_app_iff. left. apply ST in I. destruct I as [[-> I]|I]; [destruct C; discriminate|]. now apply (h_d1 _ _ K g p).
    + intros r x. rewrite RQ. destruct (P r) as [-> _]. intro Q. destruct (h_st _ _ K _ _ Q) as [Q1 Q2]. split; [exact Q1|]. intro Q3. destruct (Q2 Q3) as (g & a & I). exists g, a. now rewrite (SK _ _ I).
    + intros g r a x I CA Q. rewrite RQ in Q. destruct (CX x) as (-> & _). apply ST in I. destruct I as [[-> I]|I]; [destruct C; discriminate|]. rewrite (SK _ _ I). eapply h_b2; eauto.
    + intros g r a x I CA Q. rewrite RQ in Q. destruct (CX x) as (-> & _). apply ST in I. destruct I as [[-> I]|I]; [destruct C; discriminate|]. eapply h_dl; eauto.
    + intros r x I Q. rewrite RQ in Q. destruct (CX x) as (-> & _). apply in_app_iff in I. destruct I as [I|I]; [eapply h_del; eauto|now apply NO in I].
  - assert (ES : stk s' = stk s /\ jb s' = jb s) by (destruct F; now split). destruct ES as [ES EJ].
    assert (CX : forall c, dead (cx s' c) = dead (cx s c) /\ reg s' c = reg s c /\ (cborn (cx s c) = true -> par (cx s' c) = par (cx s c) /\ cborn (cx s' c) = true)).
    { intro c. destruct F as [c0 B1|r M S|r M S|r x M S L B1]; try (now repeat split); unfold reg; cbn; unfold fupd; [destruct (Nat.eqb_spec c c0) as [->|]|destruct (Nat.eqb_spec c x) as [->|]]; cbn; (split; [reflexivity|split; [reflexivity|]]); intro Q; try (exfalso; congruence); auto. }
    assert (KP : forall c d, kept tr s c d -> kept (tr ++ o) s' c d) by (intros c d; apply kept_same; [apply CX|apply (CX c)]).
    assert (HN : forall r y, hc (rq s r) = Some y -> lock (rq s r) = None -> state (rq s r) <> RsPending).
    { intros r y Q L S. destruct (h_st _ _ K _ _ Q) as [_ Q2]. destruct (Q2 S) as (g & a & I). apply (no_holder s r (q_locks _ _ G) L g _ I). cbn. now rewrite Nat.eqb_refl. }
    assert (NO : forall b, In b o -> match b with OHandle _ _ => True | _ => False end) by (destruct F; cbn; intuition subst; auto).
    assert (RQ : forall r y, hc (rq s' r) = Some y -> hc (rq s r) = Some y /\ (state (rq s' r) = state (rq s r) \/ state (rq s' r) = RsInFly) \/ In (OHandle r y) o /\ lock (rq s r) = None /\ state (rq s r) = RsPending /\ state (rq s' r) = RsInFly /\ par (cx s' y) = None /\ cborn (cx s' y) = true).
    { intros q y. destruct F as [c0 B1|r M S|r M S|r x M S L B1]; cbn; auto; unfold fupd at 1; (destruct (Nat.eqb_spec q r) as [->|]; [|unfold fupd; rewrite (proj2 (Nat.eqb_neq q r)) by assumption; auto]); cbn.
      - intro Q. exfalso. now apply (h_st _ _ K) in Q.
      - rewrite fupd_same. cbn. auto.
      - intro Q. injection Q as ->. right. rewrite !fupd_same. cbn. auto 7. }
    split; rewrite ?ES, ?EJ.
    + intro c. destruct (CX c) as (-> & _). rewrite (h_dead _ _ K). split; intros (g & I); exists g; [apply in_app_iff; now left|]. apply in_app_iff in I. destruct I as [I|I]; [exact I|now apply NO in I].
    + intros g c d Q. destruct (h_job _ _ K _ _ _ Q) as (P1 & P2 & P3). split; [now apply CX|]. split; [apply in_app_iff; now left|]. intros g' c' I. apply in_app_iff in I. destruct I as [I|I]; [now apply P3 in I|now apply NO in I].
    + apply (h_uniq _ _ K).
    + intros g c d I. apply in_app_iff in I. destruct I as [I|I]; [apply (h_born _ _ K) in I; now apply CX|now apply NO in I].
    + intros g c d Q. unfold cstage. rewrite ES. destruct (h_stage _ _ K _ _ _ Q) as [S|[S|[S|[S|S]]]]; auto 6.
    + intros g c d I. apply in_app_iff in I. destruct I as [I|I]; [apply KP; eapply h_kept; eauto|now apply NO in I].
    + intros r x. rewrite in_app_iff, <- (h_hc _ _ K). split; [intro Q; destruct (RQ _ _ Q) as [[Q' _]|[Q' _]]; auto|]. intros [Q|I].
      * destruct F as [c0 B1|q M S|q M S|q y M S L B1]; cbn; auto; unfold fupd; destruct (Nat.eqb_spec r q) as [->|]; cbn; auto. exfalso. now apply (HN _ _ Q L).
      * destruct F; cbn in I; try contradiction. destruct I as [I|[]]. injection I as -> ->. cbn. now rewrite fupd_same.
    + intros r x Q. apply RQ in Q. destruct Q as [[Q _]|(_ & _ & _ & _ & Q)]; [|exact Q]. apply (h_par _ _ K) in Q. destruct Q as [Q1 Q2]. destruct (CX x) as (_ & _ & Q). destruct (Q Q2) as [-> ->]. auto.
    + intros g d I. rewrite in_app_iff. destruct (h_d0 _ _ K _ _ I) as [Q|[Q1 Q2]]; [auto|]. right. destruct (CX d) as (_ & _ & Q). destruct (Q Q2) as [-> ->]. auto.
    + intros g p d I. rewrite in_app_iff. left. eapply h_d1; eauto.
    + intros r x Q. apply RQ in Q. destruct Q as [[Q S]|(_ & _ & _ & -> & _)]; [|split; discriminate]. destruct S as [->| ->]; [apply (h_st _ _ K _ _ Q)|split; discriminate].
    + intros g r a x I CA Q. destruct (CX x) as (-> & _). apply RQ in Q. destruct Q as [[Q _]|(_ & L & _)]; [eapply h_b2; eauto|]. exfalso. apply (no_holder s r (q_locks _ _ G) L g _ I). cbn. now rewrite Nat.eqb_refl.
    + intros g r a x I CA Q. destruct (CX x) as (-> & _). apply RQ in Q. destruct Q as [[Q _]|(_ & L & _)]; [eapply h_dl; eauto|]. exfalso. apply (no_holder s r (q_locks _ _ G) L g _ I). cbn. now rewrite Nat.eqb_refl.
    + intros r x I Q. destruct (CX x) as (-> & _). apply in_app_iff in I. destruct I as [I|I]; [|now apply NO in I]. apply RQ in Q. destruct Q as [[Q _]|(_ & L & S & _)]; [eapply h_del; eauto|]. exfalso. apply delivered_in in I. destruct (q_dlv _ _ G r) as [(D & _)|(_ & [D|(g & a & D)])].
      * now apply length_zero_iff_nil in D.
      * rewrite S in D. discriminate.
      * apply (no_holder s r (q_locks _ _ G) L g _ D). cbn. now rewrite Nat.eqb_refl.
Qed.
Lemma kids_init : kids [] init.
Proof. split; cbn; try easy; split; try easy. intros (k & []). Qed.

(** ** the loop of cancelAll *)
Definition loops (c : nat) (f : frame) : Prop := match f with FL1 d | FL2 d | FColl d | FCall d _ => d = c | _ => False end.
Record cancels (c : nat) (x : canc) (tr : list obs) (s : sys) : Prop := {
  u_fa : dead (cx s c) = true -> forall k, ~ In (FA1 c x) (stk s k);
  u_loop : forall k, In (OSet k c) tr -> (exists f, In f (stk s k) /\ loops c f) \/ ~ In x (reg s c);
  u_l2 : forall k, In (FL2 c) (stk s k) -> ~ In x (mp (cx s c));
  u_ld : forall k f, In f (stk s k) -> loops c f -> dead (cx s c) = true;
  u_ret : forall a k b, tr = a ++ OSet k c :: b -> In (OCancelRet k c) b -> ~ In x (reg s c) }.
Definition calm (tr : list obs) (c : nat) (x : canc) : Prop := match x with CR r => settled tr c r | CX d => settled_child tr c d end.
Lemma split_app {A} (tr o a : list A) x b : tr ++ o = a ++ x :: b -> (exists b', tr = a ++ x :: b' /\ b = b' ++ o) \/ (exists a', a = tr ++ a' /\ o = a' ++ x :: b).
Proof.
  revert a. induction tr as [|y tr IH]; intros [|z a] E; cbn in E.
  - right. exists []. auto.
  - right. exists (z :: a). auto.
  - injection E as -> <-. left. exists tr. auto.
  - injection E as -> E. destruct (IH _ E) as [(b' & -> & ->)|(a' & -> & ->)]; [left; exists b'; auto|right; exists a'; auto].
Qed.
Lemma calm_app tr o c x : calm (tr ++ o) c x -> calm tr c x.
Proof. destruct x; intros U a g b E; apply (U a g (b ++ o)); rewrite E, <- app_assoc; reflexivity. Qed.
Lemma loops_eff s k f o fs s1 c : eff s k f o fs s1 -> loops c f -> (exists f', In f' fs /\ loops c f') \/ f = FL2 c /\ sl (cx s c) = [] /\ fs = [].
Proof. destruct 1; cbn [loops]; intro L; try contradiction; subst; auto; left; eexists; cbn; split; eauto; reflexivity. Qed.
Lemma loops_new s k f o fs s1 c f' : eff s k f o fs s1 -> In f' fs -> loops c f' -> loops c f \/ (exists w, f = FCas w c) /\ dead (cx s1 c) = true.
Proof.
  destruct 1; cbn [In]; intros I L; repeat match goal with H : _ \/ _ |- _ => destruct H as [<-|I] end; try contradiction; cbn [loops] in *; auto; try (destruct x; contradiction). right. subst. cbn. rewrite fupd_same. split; [eauto|reflexivity].
Qed.
Lemma move_cancels c x tr s o s' : move s o s' -> good tr s -> births tr s -> kids tr s -> calm (tr ++ o) c x -> cancels c x tr s -> cancels c x (tr ++ o) s'.
Proof.
  intros M G B K UD U. destruct M as [|k f rest o fs s1 E H|k j o s' E J R|k j f o s1 J C|o s' F].
  - now rewrite app_nil_r.
  - destruct (eff_stk _ _ _ _ _ _ H) as [ES EJ]. assert (TOP : In f (stk s k)) by (rewrite E; now left).
    assert (NA : dead (cx s c) = true -> f <> FA1 c x) by (intros D ->; now apply (u_fa _ _ _ _ U D k)).
    assert (RN : dead (cx s c) = true -> ~ In x (reg s c) -> ~ In x (reg s1 c)).
    { intros D Q I. destruct (eff_reg_inv _ _ _ _ _ _ c x H) as [Q' _]. destruct (Q' I) as [Q2|Q2]; [contradiction|now apply (NA D) in Q2]. }
    assert (MN : dead (cx s c) = true -> ~ In x (mp (cx s c)) -> ~ In x (mp (cx s1 c))).
    { intros D Q I. destruct (eff_reg_inv _ _ _ _ _ _ c x H) as [_ Q']. destruct (Q' I) as [Q2|Q2]; [contradiction|now apply (NA D) in Q2]. }
    assert (DD : dead (cx s c) = true -> dead (cx s1 c) = true) by (intros Q; destruct (eff_dead _ _ _ _ _ _ c H) as [Q'|(_ & _ & _ & _ & Q')]; congruence).
    assert (NR : forall g, ~ In (OCancelRet g c) o) by (intros g I; destruct H; cbn in I; intuition discriminate).
    split; cbn [cx set_stk].
    + intros D g I. destruct (in_after _ _ _ _ _ _ _ _ E ES I) as [[-> I']|[I' NRT]].
      * destruct H; cbn in I'; repeat match goal with H : _ \/ _ |- _ => destruct H as [I'|I'] end; try contradiction; try discriminate; try (destruct x0; discriminate). injection I' as -> ->. cbn in D. rewrite fupd_same in D. unfold dead in *. cbn in D. congruence.
      * destruct (eff_dead _ _ _ _ _ _ c H) as [Q|((w & ->) & -> & -> & Q & _)]; [rewrite Q in D; now apply (u_fa _ _ _ _ U D g)|].
        destruct (b_makes _ _ B g _ I' eq_refl) as [_ (j & J & MK)]. destruct x as [r|d]; cbn in MK; subst j; pose proof (UD tr k [] eq_refl g) as U1.
        -- destruct (b_born _ _ B _ _ _ J) as (_ & P2 & P3). apply U1, (b_ret _ _ B) in P3. destruct P3. congruence.
        -- destruct (h_job _ _ K _ _ _ J) as (_ & P2 & P3). apply U1 in P2. now apply P3 in P2.
    + intros g I. apply in_app_iff in I. destruct I as [I|I].
      * assert (D : dead (cx s c) = true) by (apply (h_dead _ _ K); eauto). destruct (u_loop _ _ _ _ U g I) as [(f' & F & L)|Q]; [|right; apply RN; auto].
        destruct (in_kept _ _ _ _ s1 fs _ _ E ES F) as [[-> ->]|F']; [|left; eauto]. destruct (loops_eff _ _ _ _ _ _ _ H L) as [(h & Ih & Lh)|(-> & Q & ->)].
        -- left. exists h. split; [|exact Lh]. cbn. rewrite fupd_same. apply in_app_iff. now left.
        -- right. apply RN; trivial. unfold reg. rewrite Q. cbn. now apply (u_l2 _ _ _ _ U k).
      * destruct H; cbn in I; try contradiction; destruct I as [I|[]]; try discriminate. injection I as -> ->. left. exists (FL1 c). split; [|reflexivity]. cbn. rewrite fupd_same. now left.
    + intros g I. destruct (in_after _ _ _ _ _ _ _ _ E ES I) as [[-> I']|[I' _]].
      * destruct H; cbn in I'; repeat match goal with H : _ \/ _ |- _ => destruct H as [I'|I'] end; try contradiction; try discriminate; try (destruct x0; discriminate). injection I' as ->. rewrite H. easy.
      * apply MN; [now apply (u_ld _ _ _ _ U g (FL2 c))|now apply (u_l2 _ _ _ _ U g)].
    + intros g f' I L. destruct (in_after _ _ _ _ _ _ _ _ E ES I) as [[-> I']|[I' _]]; [|now apply DD, (u_ld _ _ _ _ U g f')]. destruct (loops_new _ _ _ _ _ _ _ _ H I' L) as [L'|[_ L']]; [now apply DD, (u_ld _ _ _ _ U k f)|exact L'].
    + intros a g b Q I. destruct (split_app _ _ _ _ _ Q) as [(b' & Q' & ->)|(a' & _ & ->)]; [|exfalso; apply (NR g); apply in_app_iff; right; now right]. apply in_app_iff in I. destruct I as [I|I]; [|now apply NR in I].
      apply RN; [apply (h_dead _ _ K); exists g; rewrite Q'; apply in_elt|now apply (u_ret _ _ _ _ U a g b')].
  - destruct (ret_rq _ _ _ _ _ R) as (ES & EJ & EX & D & P).
    assert (NS : forall g, ~ In (OSet g c) o) by (intros g I; destruct j; cbn in R; injection R as <- <-; cbn in I; intuition discriminate).
    split; unfold reg; rewrite ?ES, ?EX.
    + apply (u_fa _ _ _ _ U).
    + intros g I. apply in_app_iff in I. destruct I as [I|I]; [now apply (u_loop _ _ _ _ U)|now apply NS in I].
    + apply (u_l2 _ _ _ _ U).
    + apply (u_ld _ _ _ _ U).
    + intros a g b Q I. destruct (split_app _ _ _ _ _ Q) as [(b' & Q' & ->)|(a' & _ & ->)]; [|exfalso; apply (NS g); apply in_elt]. apply in_app_iff in I. destruct I as [I|I]; [now apply (u_ret _ _ _ _ U a g b')|].
      destruct (u_loop _ _ _ _ U g) as [(f & F & _)|Z]; [rewrite Q'; apply in_elt| |exact Z]. exfalso. assert (g = k) as -> by (destruct j; cbn in R; injection R as <- <-; cbn in I; intuition congruence). rewrite E in F. destruct F.
  - destruct (calls_stk _ _ _ _ _ _ C) as (ES & EJ & HF & P & D). pose proof (q_jb _ _ G _ J) as E.
    assert (NS : forall g, ~ In (OSet g c) o) by (intros g I; destruct C; cbn in I; intuition discriminate). assert (NR : forall g, ~ In (OCancelRet g c) o) by (intros g I; destruct C; cbn in I; intuition discriminate).
    assert (CX : dead (cx s1 c) = dead (cx s c) /\ sl (cx s1 c) = sl (cx s c) /\ mp (cx s1 c) = mp (cx s c)) by (destruct C; auto; cbn; unfold fupd; destruct (Nat.eqb_spec c d) as [->|]; auto).
    assert (ST : forall g h, In h (fupd (stk s1) k [f] g) -> g = k /\ h = f \/ In h (stk s g)). { intros g h. unfold fupd. rewrite ES. destruct (Nat.eqb_spec g k) as [->|]; [intros [<-|[]]; auto|auto]. }
    assert (SK : forall g h, In h (stk s g) -> fupd (stk s1) k [f] g = stk s g). { intros g h I. unfold fupd. rewrite ES. destruct (Nat.eqb_spec g k) as [->|]; [rewrite E in I; destruct I|reflexivity]. }
    destruct CX as (C1 & C2 & C3). split; unfold reg; cbn [cx stk set_stk set_jb]; rewrite ?C1, ?C2, ?C3.
    + intros Q g I. apply ST in I. destruct I as [[_ I]|I]; [destruct C; discriminate|now apply (u_fa _ _ _ _ U Q g)].
    + intros g I. apply in_app_iff in I. destruct I as [I|I]; [|now apply NS in I]. destruct (u_loop _ _ _ _ U g I) as [(h & F & L)|Q]; [left|now right]. exists h. now rewrite (SK _ _ F).
    + intros g I. apply ST in I. destruct I as [[_ I]|I]; [destruct C; discriminate|now apply (u_l2 _ _ _ _ U g)].
    + intros g h I L. apply ST in I. destruct I as [[_ ->]|I]; [destruct C; contradiction|now apply (u_ld _ _ _ _ U g h)].
    + intros a g b Q I. destruct (split_app _ _ _ _ _ Q) as [(b' & Q' & ->)|(a' & _ & ->)]; [|exfalso; apply (NS g); apply in_elt]. apply in_app_iff in I. destruct I as [I|I]; [now apply (u_ret _ _ _ _ U a g b')|now apply NR in I].
  - assert (ES : stk s' = stk s) by (now destruct F).
    assert (NS : forall g, ~ In (OSet g c) o) by (intros g I; destruct F; cbn in I; intuition discriminate). assert (NR : forall g, ~ In (OCancelRet g c) o) by (intros g I; destruct F; cbn in I; intuition discriminate).
    assert (CX : dead (cx s' c) = dead (cx s c) /\ sl (cx s' c) = sl (cx s c) /\ mp (cx s' c) = mp (cx s c)) by (destruct F; auto; cbn; unfold fupd; [destruct (Nat.eqb_spec c c0) as [->|]|destruct (Nat.eqb_spec c x0) as [->|]]; auto).
    destruct CX as (C1 & C2 & C3). split; unfold reg; rewrite ?ES, ?C1, ?C2, ?C3; try apply U.
    + intros g I. apply in_app_iff in I. destruct I as [I|I]; [|now apply NS in I]. now apply (u_loop _ _ _ _ U).
    + intros a g b Q I. destruct (split_app _ _ _ _ _ Q) as [(b' & Q' & ->)|(a' & _ & ->)]; [|exfalso; apply (NS g); apply in_elt]. apply in_app_iff in I. destruct I as [I|I]; [now apply (u_ret _ _ _ _ U a g b')|now apply NR in I].
Qed.
Lemma cancels_init c x : cancels c x [] init.
Proof. split; cbn; easy. Qed.
