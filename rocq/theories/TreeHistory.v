(** Where the answers of requests come from, and what NewRequest does with a cancelled context. *)
From Coq Require Import ZArith List Bool Arith Lia.
Import ListNotations.
From Verif Require Import RequestModel.
From Verif Require Import TreeModel TreeSpec TreeProofs TreeBirth TreeCancel.
Open Scope Z_scope.

(** ** every step shows at most one thing, so every history can be cut anywhere *)
Lemma move_one s o s' : move s o s' -> o = [] \/ exists b, o = [b].
Proof.
  destruct 1 as [|k f rest o fs s1 _ H|k j o s' _ _ R|k j f o s1 _ C|o s' F]; eauto.
  - destruct H; eauto.
  - destruct j; cbn in R; injection R as <- <-; eauto.
  - destruct C; eauto.
  - destruct F; eauto.
Qed.
Lemma run_cut es : forall tr s, run init es = (tr, s) -> forall a b, tr = a ++ b -> exists es' s', run init es' = (a, s').
Proof.
  induction es as [|e es IH] using rev_ind; intros tr s R a b E.
  - cbn in R. injection R as <- <-. symmetry in E. apply app_eq_nil in E. destruct E as [-> _]. exists [], init. reflexivity.
  - pose proof R as R'. rewrite run_snoc in R. destruct (run init es) as [t s1] eqn:Q. destruct (step s1 e) as [o s2] eqn:S. injection R as <- <-.
    destruct b as [|x b]; [rewrite app_nil_r in E; subst a; eauto|]. destruct (split_app _ _ _ _ _ E) as [(b' & -> & _)|(a' & -> & E')]; [eapply IH; eauto|].
    apply step_move, move_one in S. destruct S as [->|(y & ->)]; [destruct a'; discriminate|]. destruct a' as [|z a']; [|destruct a'; discriminate]. rewrite app_nil_r. eauto.
Qed.

(** ** histories *)
Definition about (f : frame) : option (nat * answer) :=
  match f with
  | FLk q a | FCk q a | FPr q a | FB1 q a | FR1 q a | FR2 q a | FB2 q a | FDl q a | FPf q a | FUl q a => Some (q, a)
  | _ => None
  end.
Definition given (tr : list obs) (r : nat) (v : Z) : Prop := v = RcCanceled \/ exists k, In (ORespond k r v) tr.
Record hist (tr : list obs) (s : sys) : Prop := {
  p_new : forall k c r, In (ONew k c r) tr -> born (rq s r) = true;
  p_one : forall k c r k' c', In (ONew k c r) tr -> In (ONew k' c' r) tr -> k = k' /\ c = c';
  p_ret : forall k c r, In (ONewRet k c r) tr -> In (ONew k c r) tr;
  p_made : forall r, made (rq s r) = true -> exists k c, In (ONewRet k c r) tr;
  p_late : forall a k c r b g, tr = a ++ ONew k c r :: b -> In (OSet g c) a -> own (rq s r) = None;
  p_frame : forall k f r a, In f (stk s k) -> about f = Some (r, a) -> given tr r (code_of a);
  p_del : forall a r v b, tr = a ++ ODeliver r v :: b -> given a r v;
  p_resp : forall a k r v b, tr = a ++ ORespond k r v :: b -> exists g c, In (ONewRet g c r) a;
  p_once : forall a k c r b, tr = a ++ ONewRet k c r :: b -> forall g d, ~ In (ONewRet g d r) a }.

Lemma given_app tr o r v : given tr r v -> given (tr ++ o) r v.
Proof. intros [->|(k & I)]; [now left|right; exists k; apply in_app_iff; now left]. Qed.
Lemma about_eff s k f o fs s1 f' r a : eff s k f o fs s1 -> In f' fs -> about f' = Some (r, a) -> about f = Some (r, a) \/ a = Fail RcCanceled.
Proof.
  destruct 1; cbn [In]; intros I Q; repeat match goal with H : _ \/ _ |- _ => destruct H as [<-|I] end; try contradiction; cbn [about] in *; auto; try discriminate; try (right; congruence).
  all: destruct x; cbn in Q; try discriminate; right; congruence.
Qed.
Lemma eff_flags s k f o fs s1 r : eff s k f o fs s1 -> born (rq s1 r) = born (rq s r) /\ made (rq s1 r) = made (rq s r) /\ (own (rq s1 r) = own (rq s r) \/ exists c, f = FN0 c r /\ dead (cx s c) = false).
Proof.
  intro H. destruct H; cbn; auto; try (unfold fupd; destruct (Nat.eqb_spec r r0) as [->|]; cbn; eauto 8; fail).
  all: try (unfold register, unregister; repeat match goal with |- context [if ?b then _ else _] => destruct b end; cbn; auto).
Qed.
Lemma eff_shows s k f o fs s1 b : eff s k f o fs s1 -> In b o -> (exists c, b = OSet k c) \/ exists r a, f = FDl r a /\ b = ODeliver r (code_of a).
Proof. destruct 1; cbn; intros I; try contradiction; destruct I as [<-|[]]; eauto. Qed.

(** nothing new but what is neither a call nor a return *)
Lemma hist_quiet tr o s s' :
  (forall r, born (rq s' r) = born (rq s r) /\ made (rq s' r) = made (rq s r)) ->
  (forall r, own (rq s' r) = own (rq s r) \/ exists k c, In (ONew k c r) tr /\ dead (cx s c) = false) -> kids tr s ->
  (forall k f r a, In f (stk s' k) -> about f = Some (r, a) -> given (tr ++ o) r (code_of a)) ->
  o = [] \/ (exists b, o = [b] /\ match b with ONew _ _ _ | ONewRet _ _ _ | ORespond _ _ _ => False | ODeliver r v => given tr r v | _ => True end) ->
  hist tr s -> hist (tr ++ o) s'.
Proof.
  intros F O K FR ON H.
  assert (NN : forall b, In b o -> match b with ONew _ _ _ | ONewRet _ _ _ | ORespond _ _ _ => False | ODeliver r v => given tr r v | _ => True end).
  { intros b I. destruct ON as [->|(b' & -> & Q)]; [destruct I|]. destruct I as [<-|[]]. exact Q. }
  assert (SP : forall a b c, tr ++ o = a ++ b :: c -> (exists c', tr = a ++ b :: c') \/ a = tr /\ In b o).
  { intros a b c E. destruct (split_app _ _ _ _ _ E) as [(b' & Q & _)|(a' & -> & Q)]; [eauto|]. right. destruct ON as [->|(x & -> & _)]; [destruct a'; discriminate|]. destruct a' as [|? [|]]; try discriminate. rewrite app_nil_r. split; [trivial|]. injection Q as <- _. now left. }
  split.
  - intros k c r I. destruct (F r) as [-> _]. apply in_app_iff in I. destruct I as [I|I]; [eapply p_new; eauto|now apply NN in I].
  - intros k c r k' c' I I'. apply in_app_iff in I, I'. destruct I as [I|I]; [|now apply NN in I]. destruct I' as [I'|I']; [|now apply NN in I']. eapply p_one; eauto.
  - intros k c r I. apply in_app_iff in I. rewrite in_app_iff. destruct I as [I|I]; [left; eapply p_ret; eauto|now apply NN in I].
  - intros r Q. destruct (F r) as [_ Q']. rewrite Q' in Q. destruct (p_made _ _ H _ Q) as (k & c & I). exists k, c. apply in_app_iff. now left.
  - intros a k c r b g E I. destruct (SP _ _ _ E) as [(c' & Q)|[_ Q]]; [|now apply NN in Q]. pose proof (p_late _ _ H _ _ _ _ _ _ Q I) as N. destruct (O r) as [->|(k' & d & I' & D)]; [exact N|].
    exfalso. assert (In (ONew k c r) tr) as I2 by (rewrite Q; apply in_elt). destruct (p_one _ _ H _ _ _ _ _ I' I2) as [-> ->]. enough (dead (cx s c) = true) by congruence. apply (h_dead _ _ K). exists g. rewrite Q. apply in_app_iff. now left.
  - exact FR.
  - intros a r v b E. destruct (SP _ _ _ E) as [(c' & Q)|[-> Q]]; [eapply p_del; eauto|]. now apply NN in Q.
  - intros a k r v b E. destruct (SP _ _ _ E) as [(c' & Q)|[_ Q]]; [eapply p_resp; eauto|now apply NN in Q].
  - intros a k c r b E. destruct (SP _ _ _ E) as [(c' & Q)|[_ Q]]; [eapply p_once; eauto|now apply NN in Q].
Qed.
Lemma split_one {A} (tr : list A) x a b c : tr ++ [x] = a ++ b :: c -> (exists c', tr = a ++ b :: c') \/ a = tr /\ b = x.
Proof.
  intro E. destruct (split_app _ _ _ _ _ E) as [(b' & Q & _)|(a' & -> & Q)]; [eauto|]. right. destruct a' as [|? [|]]; try discriminate. rewrite app_nil_r. injection Q as <- _. auto.
Qed.
Lemma move_hist tr s o s' : move s o s' -> good tr s -> births tr s -> kids tr s -> hist tr s -> hist (tr ++ o) s'.
Proof.
  intros M G B K H. pose proof (move_one _ _ _ M) as ON. destruct M as [|k f rest o fs s1 E F|k j o s' E J R|k j f o s1 J C|o s' F].
  - now rewrite app_nil_r.
  - destruct (eff_stk _ _ _ _ _ _ F) as [ES EJ]. assert (TOP : In f (stk s k)) by (rewrite E; now left). apply hist_quiet with s; trivial.
    + intro r. cbn [rq set_stk]. destruct (eff_flags _ _ _ _ _ _ r F) as (-> & -> & _). auto.
    + intro r. cbn [rq set_stk]. destruct (eff_flags _ _ _ _ _ _ r F) as (_ & _ & [->|(c & -> & D)]); [auto|]. right. destruct (b_makes _ _ B k _ TOP eq_refl) as [_ (j & J & MK)]. cbn in MK. subst j. exists k, c. now apply (b_born _ _ B) in J.
    + intros g f' r a I Q. apply given_app. destruct (in_after _ _ _ _ _ _ _ _ E ES I) as [[-> I']|[I' _]]; [|eapply p_frame; eauto]. destruct (about_eff _ _ _ _ _ _ _ _ _ F I' Q) as [Q'| ->]; [eapply p_frame; eauto|now left].
    + destruct ON as [->|(b & ->)]; [now left|right]. exists b. split; [trivial|]. destruct (eff_shows _ _ _ _ _ _ b F (or_introl eq_refl)) as [(c & ->)|(r & a & -> & ->)]; [exact Logic.I|]. eapply p_frame; eauto.
  - destruct (ret_rq _ _ _ _ _ R) as (ES & EJ & EX & D & P). assert (FR : forall g f r a, In f (stk s' g) -> about f = Some (r, a) -> given (tr ++ o) r (code_of a)) by (intros g f r a I Q; rewrite ES in I; apply given_app; eapply p_frame; eauto).
    destruct j as [c r|c d|c|d|r a]; cbn in R; injection R as <- <-; try (apply hist_quiet with s; trivial; [intro; auto|intro; auto|right; eexists; split; [reflexivity|exact Logic.I]]); try (apply hist_quiet with s; trivial; [intro; auto|intro; auto|now left]).
    destruct (b_born _ _ B _ _ _ J) as (Q1 & Q2 & Q3).
    assert (RQ : forall q, born (rq (set_made (set_jb s k None) r) q) = born (rq s q) /\ own (rq (set_made (set_jb s k None) r) q) = own (rq s q) /\ (made (rq (set_made (set_jb s k None) r) q) = true -> q = r \/ made (rq s q) = true)).
    { intro q. cbn. unfold fupd. destruct (Nat.eqb_spec q r) as [->|]; cbn; auto. }
    split.
    + intros g d q I. destruct (RQ q) as [-> _]. apply in_app_iff in I. destruct I as [I|[I|[]]]; [|discriminate]. eapply p_new; eauto.
    + intros g d q g' d' I I'. apply in_app_iff in I, I'. destruct I as [I|[I|[]]]; [|discriminate]. destruct I' as [I'|[I'|[]]]; [|discriminate]. eapply p_one; eauto.
    + intros g d q I. rewrite in_app_iff. left. apply in_app_iff in I. destruct I as [I|[I|[]]]; [eapply p_ret; eauto|]. injection I as <- <- <-. exact Q3.
    + intros q Q. destruct (RQ q) as (_ & _ & Q'). destruct (Q' Q) as [->|Q4].
      * exists k, c. rewrite in_app_iff. right. now left.
      * destruct (p_made _ _ H _ Q4) as (g & d & I). exists g, d. rewrite in_app_iff. now left.
    + intros a g d q b h Q I. destruct (RQ q) as (_ & -> & _). destruct (split_one _ _ _ _ _ Q) as [(c' & Q')|[_ Q']]; [eapply p_late; eauto|discriminate].
    + exact FR.
    + intros a q v b Q. destruct (split_one _ _ _ _ _ Q) as [(c' & Q')|[_ Q']]; [eapply p_del; eauto|discriminate].
    + intros a g q v b Q. destruct (split_one _ _ _ _ _ Q) as [(c' & Q')|[_ Q']]; [eapply p_resp; eauto|discriminate].
    + intros a g d q b Q. destruct (split_one _ _ _ _ _ Q) as [(c' & Q')|[-> Q']]; [eapply p_once; eauto|]. injection Q' as <- <- <-. intros g' d' I. apply (b_ret _ _ B) in I. destruct I. congruence.
  - destruct (calls_stk _ _ _ _ _ _ C) as (ES & EJ & HF & P & D). pose proof (q_jb _ _ G _ J) as E.
    assert (ST : forall g h, In h (fupd (stk s1) k [f] g) -> g = k /\ h = f \/ In h (stk s g)). { intros g h. unfold fupd. rewrite ES. destruct (Nat.eqb_spec g k) as [->|]; [intros [<-|[]]; auto|auto]. }
    assert (FR : forall g h r a, In h (fupd (stk s1) k [f] g) -> about h = Some (r, a) -> given (tr ++ o) r (code_of a)).
    { intros g h r a I Q. apply ST in I. destruct I as [[-> ->]|I]; [|apply given_app; eapply p_frame; eauto]. destruct C; cbn in Q; try discriminate. injection Q as -> ->. right. exists k. rewrite in_app_iff. right. now left. }
    destruct C as [c r B1 B2|c d B1 B2|c|d|r a Q]; try (apply hist_quiet with s; trivial; [intro; auto|intro; auto|right; eexists; split; [reflexivity|exact Logic.I]]).
    + assert (RQ : forall q, own (rq (set_born s r) q) = own (rq s q) /\ made (rq (set_born s r) q) = made (rq s q) /\ (born (rq s q) = true -> born (rq (set_born s r) q) = true) /\ born (rq (set_born s r) r) = true).
      { intro q. cbn. unfold fupd. rewrite Nat.eqb_refl. destruct (Nat.eqb_spec q r) as [->|]; cbn; auto. }
      assert (NB : forall g d, ~ In (ONew g d r) tr) by (intros g d I; apply (p_new _ _ H) in I; congruence).
      split; cbn [rq set_stk set_jb].
      * intros g d q I. destruct (RQ q) as (_ & _ & Q & Q'). apply in_app_iff in I. destruct I as [I|[I|[]]]; [apply Q; eapply p_new; eauto|]. now injection I as <- <- <-.
      * intros g d q g' d' I I'. apply in_app_iff in I, I'. destruct I as [I|[I|[]]], I' as [I'|[I'|[]]]; [eapply p_one; eauto| | |].
        -- injection I' as <- <- <-. now apply NB in I.
        -- injection I as <- <- <-. now apply NB in I'.
        -- split; congruence.
      * intros g d q I. rewrite in_app_iff. left. apply in_app_iff in I. destruct I as [I|[I|[]]]; [eapply p_ret; eauto|discriminate].
      * intros q Q. destruct (RQ q) as (_ & Q' & _). rewrite Q' in Q. destruct (p_made _ _ H _ Q) as (g & d & I). exists g, d. rewrite in_app_iff. now left.
      * intros a g d q b h Q I. destruct (RQ q) as (-> & _). destruct (split_one _ _ _ _ _ Q) as [(c' & Q')|[_ Q']]; [eapply p_late; eauto|]. injection Q' as -> -> ->. now apply (b_own _ _ B).
      * exact FR.
      * intros a q v b Q. destruct (split_one _ _ _ _ _ Q) as [(c' & Q')|[_ Q']]; [eapply p_del; eauto|discriminate].
      * intros a g q v b Q. destruct (split_one _ _ _ _ _ Q) as [(c' & Q')|[_ Q']]; [eapply p_resp; eauto|discriminate].
      * intros a g d q b Q. destruct (split_one _ _ _ _ _ Q) as [(c' & Q')|[_ Q']]; [eapply p_once; eauto|discriminate].
    + split; cbn [rq set_stk set_jb].
      * intros g d q I. apply in_app_iff in I. destruct I as [I|[I|[]]]; [|discriminate]. eapply p_new; eauto.
      * intros g d q g' d' I I'. apply in_app_iff in I, I'. destruct I as [I|[I|[]]]; [|discriminate]. destruct I' as [I'|[I'|[]]]; [|discriminate]. eapply p_one; eauto.
      * intros g d q I. rewrite in_app_iff. left. apply in_app_iff in I. destruct I as [I|[I|[]]]; [eapply p_ret; eauto|discriminate].
      * intros q Q'. destruct (p_made _ _ H _ Q') as (g & d & I). exists g, d. rewrite in_app_iff. now left.
      * intros a' g d q b h Q' I. destruct (split_one _ _ _ _ _ Q') as [(c' & Q2)|[_ Q2]]; [eapply p_late; eauto|discriminate].
      * exact FR.
      * intros a' q v b Q'. destruct (split_one _ _ _ _ _ Q') as [(c' & Q2)|[_ Q2]]; [eapply p_del; eauto|discriminate].
      * intros a' g q v b Q'. destruct (split_one _ _ _ _ _ Q') as [(c' & Q2)|[-> Q2]]; [eapply p_resp; eauto|]. injection Q2 as -> -> ->. now apply (p_made _ _ H).
      * intros a' g d q b Q'. destruct (split_one _ _ _ _ _ Q') as [(c' & Q2)|[_ Q2]]; [eapply p_once; eauto|discriminate].
  - assert (ES : stk s' = stk s) by (now destruct F). apply hist_quiet with s; trivial.
    + intro r. destruct F; cbn; auto; unfold fupd; destruct (Nat.eqb_spec r r0) as [->|]; auto.
    + intro r. left. destruct F; cbn; auto; unfold fupd; destruct (Nat.eqb_spec r r0) as [->|]; auto.
    + intros g f r a I Q. rewrite ES in I. apply given_app. eapply p_frame; eauto.
    + destruct F; eauto. right. eexists. split; [reflexivity|exact Logic.I].
Qed.
Lemma hist_init : hist [] init.
Proof. split; cbn; try easy; intros [|]; discriminate. Qed.

Record all (tr : list obs) (s : sys) : Prop := { a_good : good tr s; a_births : births tr s; a_kids : kids tr s; a_hist : hist tr s; a_cancels : forall c x, calm tr c x -> cancels c x tr s }.
Lemma run_all es tr s : run init es = (tr, s) -> all tr s.
Proof.
  revert es tr s. apply run_ind.
  - split; [apply good_init|apply births_init|apply kids_init|apply hist_init|intros; apply cancels_init].
  - intros tr s o s' [G B K H U] M. split; [eapply move_good|eapply move_births|eapply move_kids|eapply move_hist|]; eauto. intros c x UD. eapply move_cancels; eauto. apply U. now apply calm_app in UD.
Qed.
