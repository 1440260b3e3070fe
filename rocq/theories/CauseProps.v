(** How contexts end, and what they report then. *)
From Coq Require Import ZArith List Bool Arith Lia.
Import ListNotations.
From Verif Require Import RequestModel.
From Verif Require Import TreeModel TreeSpec TreeProofs TreeBirth TreeCancel TreeHistory CauseSpec.
Open Scope Z_scope.

Definition belongs (tr : list obs) (c : nat) (x : canc) : Prop := match x with CR r => exists k, In (ONew k c r) tr | CX d => exists k, In (OChild k c d) tr end.
Definition called (tr : list obs) (r : nat) (v : Z) : Prop := (exists k, In (ORespond k r v) tr) \/ v = RcCanceled /\ exists k p, In (ONew k p r) tr /\ ended tr p.
Definition okf (tr : list obs) (f : frame) : Prop :=
  match f with
  | FCas w c => explains tr c w
  | FL1 c | FL2 c | FColl c => ended tr c
  | FCall c l => ended tr c /\ forall x, In x l -> belongs tr c x
  | FN0 c r => belongs tr c (CR r)
  | FC0 c d => belongs tr c (CX d)
  | FA0 c x | FA1 c x => belongs tr c x
  | FLk r a | FCk r a | FPr r a | FB1 r a => called tr r (code_of a)
  | _ => True
  end.
Record causes (tr : list obs) (s : sys) : Prop := {
  w_stk : forall k f, In f (stk s k) -> okf tr f;
  w_reg : forall c x, In x (reg s c) -> belongs tr c x;
  w_st : forall c w, st (cx s c) = Some w -> explains tr c w;
  w_child : forall k p c, In (OChild k p c) tr -> cborn (cx s c) = true;
  w_excl : forall k p c r, In (OChild k p c) tr -> In (OHandle r c) tr -> False;
  w_one : forall k p c k' p', In (OChild k p c) tr -> In (OChild k' p' c) tr -> k = k' /\ p = p' }.

Lemma ended_app tr o c : ended tr c -> ended (tr ++ o) c.
Proof. intros (g & I). exists g. apply in_app_iff. now left. Qed.
Lemma explains_app tr o c w : explains tr c w -> explains (tr ++ o) c w.
Proof.
  destruct 1; [eapply by_call|eapply by_parent|eapply by_cancel|eapply by_issuer|eapply by_timeout]; rewrite ?in_app_iff; eauto using ended_app.
Qed.
Lemma belongs_app tr o c x : belongs tr c x -> belongs (tr ++ o) c x.
Proof. destruct x; cbn; intros (k & I); exists k; rewrite in_app_iff; auto. Qed.
Lemma called_app tr o r v : called tr r v -> called (tr ++ o) r v.
Proof. intros [(k & I)|(-> & k & p & I & J)]; [left; exists k|right; split; [trivial|]; exists k, p; split; [|now apply ended_app]]; rewrite in_app_iff; auto. Qed.
Lemma okf_app tr o f : okf tr f -> okf (tr ++ o) f.
Proof. destruct f; cbn [okf]; auto using ended_app, explains_app, belongs_app, called_app. intros [A1 A2]. eauto using ended_app, belongs_app. Qed.
Lemma cancel_okf tr c x : belongs tr c x -> ended tr c -> okf tr (cancel_of x).
Proof. destruct x as [r|d]; cbn; intros (k & I) D; [right; split; [trivial|eauto]|eapply by_parent; eauto]. Qed.

Lemma eff_st s k f o fs s1 c : eff s k f o fs s1 -> st (cx s1 c) = st (cx s c) \/ exists w, f = FCas w c /\ st (cx s1 c) = Some w.
Proof.
  destruct 1; auto; cbn; auto; try (unfold fupd; destruct (Nat.eqb_spec c c0) as [->|]; cbn; now eauto).
  - left. destruct (Nat.eq_dec c c0) as [->|N]; [rewrite fupd_same; cbn|now rewrite fupd_other, register_other by exact N]. unfold register. destruct (length _ <? 2)%nat; cbn; now rewrite fupd_same.
  - unfold fupd; destruct (Nat.eqb_spec c d) as [->|]; cbn; now auto.
  - left. destruct (Nat.eq_dec c p) as [->|N]; [|now rewrite unregister_other by exact N]. unfold unregister. destruct (existsb _ _); cbn; now rewrite fupd_same.
  - left. destruct (Nat.eq_dec c c0) as [->|N]; [|now rewrite unregister_other by exact N]. unfold unregister. destruct (existsb _ _); cbn; now rewrite fupd_same.
Qed.

Lemma eff_okf tr s k f o fs s1 f' : eff s k f o fs s1 -> kids tr s -> causes tr s -> okf tr f -> In f' fs -> okf (tr ++ o) f'.
Proof.
  intros H K W F I.
  assert (DE : forall c, dead (cx s c) = true -> ended tr c) by (intros c D; now apply (h_dead _ _ K)).
  assert (HH : forall r x, hc (rq s r) = Some x -> In (OHandle r x) tr) by (intros r x Q; now apply (h_hc _ _ K)).
  destruct H; cbn [In] in I; repeat match goal with H : _ \/ _ |- _ => destruct H as [<-|I] end; try contradiction;
    try match goal with |- okf (_ ++ [OSet _ _]) _ => idtac | _ => apply okf_app end; cbn [okf] in *; auto; try (destruct F as [F1 F2]; now auto).
  - exists k. apply in_app_iff. right. now left.
  - split; [exact F|]. intros x I. now apply (w_reg _ _ W).
  - destruct F as [F1 F2]. apply cancel_okf with c; [apply F2; now left|exact F1].
  - destruct F as [F1 F2]. split; [exact F1|]. intros y Y. apply F2. now right.
  - destruct F as (g & F). right. split; [trivial|]. eauto.
  - destruct F as (g & F). eapply by_parent; eauto.
  - apply cancel_okf with c; auto.
  - match goal with X : code_of _ = _ |- _ => rewrite X in F end. destruct F as [(g & F)|(_ & g & p & F & D)]; [eapply by_cancel; eauto|eapply by_issuer; eauto].
  - match goal with X : code_of _ = RcTimeout |- _ => rewrite X in F end. destruct F as [(g & F)|(F & _)]; [eapply by_timeout; eauto|discriminate].
Qed.

Lemma move_causes tr s o s' : move s o s' -> good tr s -> kids tr s -> causes tr s -> causes (tr ++ o) s'.
Proof.
  intros M G K W. destruct M as [|k f rest o fs s1 E H|k j o s' E J R|k j f o s1 J C|o s' F].
  - now rewrite app_nil_r.
  - destruct (eff_stk _ _ _ _ _ _ H) as [ES EJ]. assert (TOP : In f (stk s k)) by (rewrite E; now left).
    assert (NO : forall b, In b o -> match b with OSet _ _ | ODeliver _ _ => True | _ => False end) by (destruct H; cbn; intuition subst; trivial).
    split; cbn [cx set_stk].
    + intros g f' I. destruct (in_after _ _ _ _ _ _ _ _ E ES I) as [[-> I']|[I' _]]; [|apply okf_app; eapply w_stk; eauto]. eapply eff_okf; eauto. eapply w_stk; eauto.
    + intros c x I. apply belongs_app. destruct (proj1 (eff_reg_inv _ _ _ _ _ _ c x H) I) as [Q| ->]; [now apply (w_reg _ _ W)|]. exact (w_stk _ _ W _ _ TOP).
    + intros c w Q. apply explains_app. destruct (eff_st _ _ _ _ _ _ c H) as [Q'|(w' & -> & Q')]; [apply (w_st _ _ W); congruence|]. assert (w' = w) as -> by congruence. exact (w_stk _ _ W _ _ TOP).
    + intros g p c I. apply in_app_iff in I. destruct I as [I|I]; [|now apply NO in I]. apply (w_child _ _ W) in I. destruct (eff_cx _ _ _ _ _ _ c H); congruence.
    + intros g p c r I I'. apply in_app_iff in I, I'. destruct I as [I|I]; [|now apply NO in I]. destruct I' as [I'|I']; [|now apply NO in I']. eapply w_excl; eauto.
    + intros g p c g' p' I I'. apply in_app_iff in I, I'. destruct I as [I|I]; [|now apply NO in I]. destruct I' as [I'|I']; [|now apply NO in I']. eapply w_one; eauto.
  - destruct (ret_rq _ _ _ _ _ R) as (ES & EJ & EX & D & P).
    assert (NO : forall b, In b o -> match b with OChild _ _ _ | OHandle _ _ => False | _ => True end) by (destruct j; cbn in R; injection R as <- <-; cbn; intuition subst; trivial).
    split; rewrite ?ES, ?EX; unfold reg; rewrite ?EX.
    + intros g f' I. apply okf_app. eapply w_stk; eauto.
    + intros c x I. apply belongs_app. now apply (w_reg _ _ W).
    + intros c w Q. apply explains_app. now apply (w_st _ _ W).
    + intros g p c I. apply in_app_iff in I. destruct I as [I|I]; [|now apply NO in I]. now apply (w_child _ _ W) in I.
    + intros g p c r I I'. apply in_app_iff in I, I'. destruct I as [I|I]; [|now apply NO in I]. destruct I' as [I'|I']; [|now apply NO in I']. eapply w_excl; eauto.
    + intros g p c g' p' I I'. apply in_app_iff in I, I'. destruct I as [I|I]; [|now apply NO in I]. destruct I' as [I'|I']; [|now apply NO in I']. eapply w_one; eauto.
  - destruct (calls_stk _ _ _ _ _ _ C) as (ES & EJ & HF & P & D).
    assert (ST : forall g h, In h (fupd (stk s1) k [f] g) -> g = k /\ h = f \/ In h (stk s g)). { intros g h. unfold fupd. rewrite ES. destruct (Nat.eqb_spec g k) as [->|]; [intros [<-|[]]; auto|auto]. }
    assert (CX : forall c, st (cx s1 c) = st (cx s c) /\ reg s1 c = reg s c /\ (cborn (cx s c) = true -> cborn (cx s1 c) = true)) by (intro c; destruct C; auto; unfold reg; cbn; unfold fupd; destruct (Nat.eqb_spec c d) as [->|]; auto).
    split; cbn [cx set_stk set_jb stk].
    + intros g h I. apply ST in I. destruct I as [[-> ->]|I]; [|apply okf_app; eapply w_stk; eauto]. destruct C; cbn; try (exists k; apply in_app_iff; right; now left); trivial.
      * eapply by_call. apply in_app_iff. right. now left.
      * left. exists k. apply in_app_iff. right. now left.
    + intros c x I. apply belongs_app. apply (w_reg _ _ W). now destruct (CX c) as (_ & <- & _).
    + intros c w Q. apply explains_app, (w_st _ _ W). now destruct (CX c) as (<- & _).
    + intros g p c I. apply in_app_iff in I. destruct I as [I|I]; [apply CX; now apply (w_child _ _ W) in I|]. destruct C; cbn in I; destruct I as [I|[]]; try discriminate. injection I as <- <- <-. cbn. now rewrite fupd_same.
    + assert (NH : forall r c, In (OHandle r c) tr -> cborn (cx s c) = true) by (intros r c I; apply (h_hc _ _ K) in I; now apply (h_par _ _ K) in I).
      intros g p c r I I'. apply in_app_iff in I, I'. destruct I' as [I'|I']; [|destruct C; cbn in I'; destruct I' as [I'|[]]; discriminate]. destruct I as [I|I]; [eapply w_excl; eauto|].
      destruct C; cbn in I; destruct I as [I|[]]; try discriminate. injection I as <- <- <-. apply NH in I'. congruence.
    + intros g p c g' p' I I'. apply in_app_iff in I, I'. destruct I as [I|I], I' as [I'|I'].
      * eapply w_one; eauto.
      * destruct C; cbn in I'; destruct I' as [I'|[]]; try discriminate. injection I' as <- <- <-. apply (w_child _ _ W) in I. congruence.
      * destruct C; cbn in I; destruct I as [I|[]]; try discriminate. injection I as <- <- <-. apply (w_child _ _ W) in I'. congruence.
      * destruct C; cbn in I, I'; destruct I as [I|[]], I' as [I'|[]]; try discriminate. split; congruence.
  - assert (ES : stk s' = stk s) by (now destruct F).
    assert (CX : forall c, st (cx s' c) = st (cx s c) /\ reg s' c = reg s c /\ (cborn (cx s c) = true -> cborn (cx s' c) = true)) by (intro c; destruct F; auto; unfold reg; cbn; unfold fupd; [destruct (Nat.eqb_spec c c0) as [->|]|destruct (Nat.eqb_spec c x) as [->|]]; auto).
    assert (NO : forall b, In b o -> match b with OHandle r c => cborn (cx s c) = false | _ => False end) by (destruct F; cbn; intuition subst; trivial).
    split; rewrite ?ES.
    + intros g f' I. apply okf_app. eapply w_stk; eauto.
    + intros c x I. apply belongs_app. apply (w_reg _ _ W). now destruct (CX c) as (_ & <- & _).
    + intros c w Q. apply explains_app, (w_st _ _ W). now destruct (CX c) as (<- & _).
    + intros g p c I. apply in_app_iff in I. destruct I as [I|I]; [|now apply NO in I]. apply CX. now apply (w_child _ _ W) in I.
    + intros g p c r I I'. apply in_app_iff in I, I'. destruct I as [I|I]; [|now apply NO in I]. destruct I' as [I'|I']; [eapply w_excl; eauto|]. apply NO in I'. apply (w_child _ _ W) in I. congruence.
    + intros g p c g' p' I I'. apply in_app_iff in I, I'. destruct I as [I|I]; [|now apply NO in I]. destruct I' as [I'|I']; [|now apply NO in I']. eapply w_one; eauto.
Qed.
Record allc (tr : list obs) (s : sys) : Prop := { l_good : good tr s; l_births : births tr s; l_kids : kids tr s; l_causes : causes tr s }.
Lemma run_causes es tr s : run init es = (tr, s) -> allc tr s.
Proof.
  revert es tr s. apply run_ind.
  - split; [apply good_init|apply births_init|apply kids_init|]. split; cbn; easy.
  - intros tr s o s' [G B K W] M. split; [eapply move_good|eapply move_births|eapply move_kids|eapply move_causes]; eauto.
Qed.
Lemma move_st s o s' c w : move s o s' -> st (cx s c) = Some w -> st (cx s' c) = Some w.
Proof.
  intros M Q. destruct M as [|k f rest o fs s1 E H|k j o s' E J R|k j f o s1 J C|o s' F]; trivial.
  - cbn. destruct (eff_st _ _ _ _ _ _ c H) as [Q'|(w' & -> & Q')]; [congruence|]. inversion H; subst; trivial. unfold dead in *. rewrite Q in *. discriminate.
  - destruct (ret_rq _ _ _ _ _ R) as (_ & _ & -> & _). exact Q.
  - cbn. destruct C; trivial. cbn. unfold fupd. destruct (Nat.eqb_spec c d) as [->|]; exact Q.
  - destruct F; trivial; cbn; unfold fupd; [destruct (Nat.eqb_spec c c0) as [->|]|destruct (Nat.eqb_spec c x) as [->|]]; exact Q.
Qed.

(** ** C141: a context reports how it ended *)

(** A context is alive until Cancel or Expire has taken effect on it, and not afterwards. *)
Theorem C141_alive es tr s c : run init es = (tr, s) -> (Alive s c = false <-> ended tr c).
Proof.
  intro R. apply run_causes in R. destruct R as [G B K W]. unfold ended; rewrite <- (h_dead _ _ K). unfold Alive, dead. destruct (st (cx s c)); split; congruence.
Qed.
Print Assumptions C141_alive.
(** What it reports then never changes. *)
Theorem C141_final es s c es' s' : s = snd (run init es) -> s' = snd (run s es') -> Alive s c = false -> Alive s' c = false /\ Timeout s' c = Timeout s c.
Proof.
  intros _ -> A1. unfold Alive, Timeout in *. destruct (st (cx s c)) as [w|] eqn:Q; [|discriminate]. clear A1.
  assert (st (cx (snd (run s es')) c) = Some w) as ->; [|auto]. revert s Q. induction es' as [|e es' IH]; intros s Q; [exact Q|].
  cbn. destruct (step s e) as [o s1] eqn:P. apply step_move in P. pose proof (move_st _ _ _ _ _ P Q) as Q1. specialize (IH _ Q1). destruct (run s1 es'). exact IH.
Qed.
Print Assumptions C141_final.
(** It ends for a reason, and reports it: it reports a timeout only if Expire was called, or the request it was made for
    has timed out, and a cancellation only if Cancel was called, or what it was made for has ended or was cancelled. *)
Theorem C141_cause es tr s c : run init es = (tr, s) -> Alive s c = false -> explains tr c (if Timeout s c then CxTimeout else CxCanceled).
Proof.
  intros R A1. apply run_causes in R. destruct R as [G B K W]. unfold Alive, Timeout in *. destruct (st (cx s c)) as [[|]|] eqn:Q; try discriminate; now apply (w_st _ _ W).
Qed.
Print Assumptions C141_cause.
(** A child on which Expire was not called never reports a timeout, whatever ends the context it is a child of. *)
Theorem C141_child es tr s k p c : run init es = (tr, s) -> In (OChild k p c) tr -> (forall g, ~ In (OCancel g c CxTimeout) tr) -> Timeout s c = false.
Proof.
  intros R I N. apply run_causes in R. destruct R as [G B K W]. unfold Timeout. destruct (st (cx s c)) as [[|]|] eqn:Q; trivial. exfalso.
  apply (w_st _ _ W) in Q. inversion Q as [g w I'|g p' I' D E|g r I' I2 E|g p' r I' I2 D E|g r I' I2 E]; subst; [now apply N in I'|now apply (w_excl _ _ W k p c r)].
Qed.
Print Assumptions C141_child.
(** A handler's context: its request times out, so it expires, and the child it has made is cancelled; the handler then
    answers, and that answer is delivered. *)
Fixpoint gos (n k : nat) : list ev := match n with O => [] | S n => EGo k :: gos n k end.
Definition timedOut : list ev :=
  [ERoot 0; ENew 0 0 5] ++ gos 4 0 ++ [EPend 5; EHandle 5 1; EChild 1 1 2] ++ gos 4 1 ++ [ERespond 2 5 (Fail RcTimeout)] ++ gos 20 2 ++
  [EDone 1 2] ++ gos 3 1 ++ gos 20 2 ++ [ERespond 1 5 (Bytes 0)] ++ gos 12 1.
Theorem C141_example : exists tr s, run init timedOut = (tr, s) /\ at_rest s /\
  Alive s 1 = false /\ Timeout s 1 = true /\ Alive s 2 = false /\ Timeout s 2 = false /\ Alive s 0 = true /\ delivered tr 5 = [0].
Proof.
  exists (fst (run init timedOut)), (snd (run init timedOut)).
  split; [apply surjective_pairing|]. split; [intro k; do 3 (destruct k as [|k]; [vm_compute; reflexivity|]); vm_compute; reflexivity|].
  repeat split; vm_compute; reflexivity.
Qed.
(** So the children of a context that has expired report that they were cancelled. *)
Definition expired : list ev := [ERoot 0; EChild 1 0 1] ++ (gos 4%nat 1%nat ++ [ECancel 2 0 CxTimeout] ++ gos 20%nat 2%nat ++ [EDone 1 1] ++ gos 3%nat 1%nat ++ gos 10%nat 2%nat).
Theorem C141_child_of_expired_refuted : exists es tr s p c k g,
  run init es = (tr, s) /\ at_rest s /\ In (OChild k p c) tr /\ In (OCancel g p CxTimeout) tr /\ Timeout s p = true /\ Alive s c = false /\ Timeout s c = false.
Proof.
  exists expired, (fst (run init expired)), (snd (run init expired)), 0%nat, 1%nat, 1%nat, 2%nat.
  split; [apply surjective_pairing|]. split; [intro k; do 3 (destruct k as [|k]; [vm_compute; reflexivity|]); vm_compute; reflexivity|].
  repeat split; vm_compute; auto 10.
Qed.
Print Assumptions C141_child_of_expired_refuted.
