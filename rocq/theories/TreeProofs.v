(** The steps of TreeModel.v one by one, and the invariants about locks, states of requests and deliveries. *)
From Coq Require Import ZArith List Bool Arith Lia.
Import ListNotations.
From Verif Require Import RequestModel.
From Verif Require Import TreeModel TreeSpec.
Open Scope Z_scope.

Inductive eff (s : sys) (k : nat) : frame -> list obs -> list frame -> sys -> Prop :=
| e_cas_no w c : dead (cx s c) = true -> eff s k (FCas w c) [] [] s
| e_cas w c : dead (cx s c) = false -> eff s k (FCas w c) [OSet k c] [FL1 c] (set_dead s c w)
| e_l1a c : mp (cx s c) = [] -> eff s k (FL1 c) [] [FL2 c] s
| e_l1b c : mp (cx s c) <> [] -> eff s k (FL1 c) [] [FColl c] s
| e_l2a c : sl (cx s c) = [] -> eff s k (FL2 c) [] [] s
| e_l2b c : sl (cx s c) <> [] -> eff s k (FL2 c) [] [FColl c] s
| e_coll c : mu (cx s c) = false -> eff s k (FColl c) [] [FCall c (sl (cx s c) ++ mp (cx s c))] s
| e_call0 c : eff s k (FCall c []) [] [FL1 c] s
| e_call1 c x l : eff s k (FCall c (x :: l)) [] [cancel_of x; FCall c l] s
| e_n0a c r : dead (cx s c) = true -> eff s k (FN0 c r) [] [FLk r (Fail RcCanceled)] s
| e_n0b c r : dead (cx s c) = false -> eff s k (FN0 c r) [] [FA0 c (CR r)] (set_own s r c)
| e_c0a c d : dead (cx s c) = true -> eff s k (FC0 c d) [] [FCas CxCanceled d] s
| e_c0b c d : dead (cx s c) = false -> eff s k (FC0 c d) [] [FA0 c (CX d)] s
| e_a0a c x : mu (cx s c) = false -> dead (cx s c) = true -> eff s k (FA0 c x) [] [cancel_of x] s
| e_a0b c x : mu (cx s c) = false -> dead (cx s c) = false -> eff s k (FA0 c x) [] [FA1 c x] (set_mu s c true)
| e_a1 c x : eff s k (FA1 c x) [] [] (set_mu (register s c x) c false)
| e_d0a d p : par (cx s d) = Some p -> eff s k (FD0 d) [] [FD1 p d] (set_par s d None)
| e_d0b d : par (cx s d) = None -> eff s k (FD0 d) [] [] s
| e_d1 p d : mu (cx s p) = false -> eff s k (FD1 p d) [] [] (unregister s p (CX d))
| e_lk r a : lock (rq s r) = None -> eff s k (FLk r a) [] [FCk r a] (set_lock s r (Some k))
| e_cka r a : may s r a = true -> eff s k (FCk r a) [] [FPr r a] s
| e_ckb r a : may s r a = false -> eff s k (FCk r a) [] [FUl r a] s
| e_pr r a : eff s k (FPr r a) [] [FB1 r a] (set_state s r RsPrepared)
| e_b1a r a : hc (rq s r) = None -> eff s k (FB1 r a) [] [FB2 r a] s
| e_b1b r a x : hc (rq s r) = Some x -> code_of a = RcCanceled -> eff s k (FB1 r a) [] [FCas CxCanceled x; FB2 r a] s
| e_b1c r a x : hc (rq s r) = Some x -> code_of a <> RcCanceled -> code_of a = RcTimeout -> eff s k (FB1 r a) [] [FCas CxTimeout x; FR1 r a] s
| e_b1d r a x : hc (rq s r) = Some x -> code_of a <> RcCanceled -> code_of a <> RcTimeout -> eff s k (FB1 r a) [] [FD0 x; FB2 r a] s
| e_r1 r a : eff s k (FR1 r a) [] [FR2 r a] (set_state s r RsPending)
| e_r2a r a : state (rq s r) = RsPending -> eff s k (FR2 r a) [] [FUl r a] (set_state s r RsInFly)
| e_r2b r a : state (rq s r) <> RsPending -> eff s k (FR2 r a) [] [FUl r a] s
| e_b2a r a : own (rq s r) = None -> eff s k (FB2 r a) [] [FDl r a] s
| e_b2b r a c : own (rq s r) = Some c -> mu (cx s c) = false -> eff s k (FB2 r a) [] [FDl r a] (unregister s c (CR r))
| e_dl r a : eff s k (FDl r a) [ODeliver r (code_of a)] [FPf r a] s
| e_pf r a : eff s k (FPf r a) [] [FUl r a] (set_state s r RsPerformed)
| e_ul r a : eff s k (FUl r a) [] [] (set_lock s r None).

Lemma go_spec s k f rest : go s k f rest = ([], s) \/ exists o fs s1, go s k f rest = (o, set_stk s1 k (fs ++ rest)) /\ eff s k f o fs s1.
Proof.
  destruct f; cbn [go];
  repeat (match goal with
  | |- context [match ?x with _ => _ end] => destruct x eqn:?
  end); try (left; reflexivity); right; do 3 eexists; (split; [first [reflexivity|
      match goal with |- (?o, set_stk ?s ?k (?f :: ?r)) = _ => exact (eq_refl (o, set_stk s k ([f] ++ r))) end]|]); try (constructor; first [assumption|congruence|idtac]).
  all: try (econstructor; first [eassumption|congruence]).
  all: try match goal with X : (_ =? _) = true |- _ => apply Z.eqb_eq in X end; try match goal with X : (_ =? _) = false |- _ => apply Z.eqb_neq in X end; try match goal with X : (_ =? _) = false |- _ => apply Z.eqb_neq in X end; eauto using eff.
Qed.

(** a step does not touch what is not its own *)
Lemma eff_stk s k f o fs s1 : eff s k f o fs s1 -> stk s1 = stk s /\ jb s1 = jb s.
Proof. destruct 1; try (now split); unfold unregister, register, set_mu; repeat match goal with |- context [if ?b then _ else _] => destruct b end; now split. Qed.

Lemma fupd_same {A} (f : nat -> A) i v : fupd f i v i = v.
Proof. unfold fupd. now rewrite Nat.eqb_refl. Qed.
Lemma fupd_other {A} (f : nat -> A) i v j : j <> i -> fupd f i v j = f j.
Proof. intro N. unfold fupd. now apply Nat.eqb_neq in N; rewrite N. Qed.
(** what a change of a context leaves alone *)
Lemma register_rq s c x : rq (register s c x) = rq s.
Proof. unfold register. destruct (_ <? 2)%nat; reflexivity. Qed.
Lemma unregister_rq s c x : rq (unregister s c x) = rq s.
Proof. unfold unregister. destruct (existsb _ _); reflexivity. Qed.
Definition reg (s : sys) (c : nat) : list canc := sl (cx s c) ++ mp (cx s c).
Lemma register_other s c x d : d <> c -> cx (register s c x) d = cx s d.
Proof. intro N. unfold register. destruct (_ <? 2)%nat; cbn; now rewrite fupd_other. Qed.
Lemma register_same s c x : dead (cx (register s c x) c) = dead (cx s c) /\ par (cx (register s c x) c) = par (cx s c) /\ cborn (cx (register s c x) c) = cborn (cx s c) /\
  (forall y, In y (reg (register s c x) c) <-> In y (reg s c) \/ y = x).
Proof.
  unfold register, reg. destruct (_ <? 2)%nat; cbn; rewrite fupd_same; cbn; (split; [reflexivity|split; [reflexivity|split; [reflexivity|]]]); intro y; rewrite !in_app_iff; cbn; intuition.
Qed.
Lemma unregister_other s c x d : d <> c -> cx (unregister s c x) d = cx s d.
Proof. intro N. unfold unregister. destruct (existsb _ _); cbn; now rewrite fupd_other. Qed.
Lemma ceq_eq x y : ceq x y = true <-> x = y.
Proof. destruct x, y; cbn; try rewrite Nat.eqb_eq; split; congruence. Qed.
Lemma drop_in x l y : In y (drop x l) -> In y l.
Proof. induction l as [|z l IH]; cbn; [trivial|]. destruct (ceq x z); cbn; intuition. Qed.
Lemma drop_keeps x l y : y <> x -> In y l -> In y (drop x l).
Proof. intro N. induction l as [|z l IH]; cbn; [trivial|]. destruct (ceq x z) eqn:E; cbn; [|intuition]. intros [->|H]; [apply ceq_eq in E; congruence|exact H]. Qed.
Lemma unregister_same s c x : dead (cx (unregister s c x) c) = dead (cx s c) /\ par (cx (unregister s c x) c) = par (cx s c) /\ cborn (cx (unregister s c x) c) = cborn (cx s c) /\
  mu (cx (unregister s c x) c) = mu (cx s c) /\
  (forall y, In y (reg (unregister s c x) c) -> In y (reg s c)) /\ (forall y, In y (mp (cx (unregister s c x) c)) -> In y (mp (cx s c))) /\
  (forall y, y <> x -> In y (reg s c) -> In y (reg (unregister s c x) c)).
Proof.
  unfold unregister, reg. destruct (existsb _ _) eqn:E; cbn; rewrite fupd_same; cbn; (split; [reflexivity|split; [reflexivity|split; [reflexivity|split; [reflexivity|split; [|split]]]]]); intro y; rewrite ?in_app_iff; trivial.
  - intros [H|H]; [left; eapply drop_in; eassumption|now right].
  - intros N [H|H]; [left; now apply drop_keeps|now right].
  - rewrite filter_In. intuition.
  - rewrite filter_In. intuition.
  - intros N [H|H]; [now left|right]. apply filter_In. split; [exact H|]. destruct (ceq x y) eqn:Q; [apply ceq_eq in Q; congruence|reflexivity].
Qed.

(** ** locks *)
Definition hold (r : nat) (f : frame) : nat :=
  match f with
  | FCk q _ | FPr q _ | FB1 q _ | FR1 q _ | FR2 q _ | FB2 q _ | FDl q _ | FPf q _ | FUl q _ => if Nat.eqb q r then 1 else 0
  | _ => 0
  end.
Fixpoint cnt (r : nat) (l : list frame) : nat := match l with [] => 0 | f :: l => hold r f + cnt r l end.
Definition is_holder (o : option nat) (g : nat) : nat := match o with Some h => if Nat.eqb h g then 1 else 0 | None => 0 end.
Definition locks (s : sys) : Prop := forall r g, cnt r (stk s g) = is_holder (lock (rq s r)) g.
Lemma cnt_app r a b : cnt r (a ++ b) = (cnt r a + cnt r b)%nat.
Proof. induction a as [|f a IH]; cbn; [reflexivity|]. rewrite IH. lia. Qed.
Lemma cnt_in r l f : In f l -> hold r f = 1%nat -> (1 <= cnt r l)%nat.
Proof. induction l as [|h l IH]; cbn; [easy|]. intros [->|H] E; [lia|]. specialize (IH H E). lia. Qed.
Lemma cancel_hold r x : hold r (cancel_of x) = 0%nat.
Proof. now destruct x. Qed.

Ltac neq := repeat match goal with |- context [Nat.eqb ?a ?b] => destruct (Nat.eqb_spec a b); subst end.
Lemma eff_locks s k f o fs s1 rest : stk s k = f :: rest -> eff s k f o fs s1 -> locks s -> locks (set_stk s1 k (fs ++ rest)).
Proof.
  intros E H L r g. destruct (eff_stk _ _ _ _ _ _ H) as [ES _]. cbn [stk set_stk rq]. unfold fupd at 1. rewrite ES.
  pose proof (L r g) as Q. pose proof (L r k) as QK. rewrite E in QK. cbn [cnt] in QK.
  destruct (Nat.eqb_spec g k) as [->|N].
  - rewrite cnt_app. rewrite E in Q. cbn [cnt] in Q. destruct H; rewrite ?register_rq, ?unregister_rq; cbn [cnt hold Nat.add rq set_stk set_dead set_cx set_mu set_par set_own set_rq set_lock set_state] in *; rewrite ?register_rq, ?cancel_hold in *; try exact Q;
    try (unfold fupd; destruct (Nat.eqb_spec r c); subst; exact Q);
    try (unfold fupd; destruct (Nat.eqb_spec r r0) as [->|]; cbn [lock]; revert Q; neq; congruence || (intro; exact Q) || (intro Q; exact Q) || idtac).
    all: try (destruct (Nat.eqb_spec r r0) as [->|]; cbn [lock] in *).
    all: try (rewrite H in Q; cbn in *; rewrite ?Nat.eqb_refl in *; lia).
    all: try (cbn in *; revert Q; neq; try congruence; cbn; lia).
    + intros _. rewrite QK, H. cbn. now rewrite Nat.eqb_refl.
    + destruct (lock (rq s r0)) as [h|]; cbn; [|discriminate]. destruct (Nat.eqb h k); lia.
  - destruct H; rewrite ?register_rq, ?unregister_rq; cbn [cnt hold Nat.add rq set_stk set_dead set_cx set_mu set_par set_own set_rq set_lock set_state] in *; rewrite ?register_rq in *; try exact Q;
    try (unfold fupd; destruct (Nat.eqb_spec r r0) as [->|]; cbn [lock]; exact Q).
    + unfold fupd. destruct (Nat.eqb_spec r r0) as [->|]; cbn [lock]; [|exact Q]. rewrite H in Q. cbn in *. rewrite Q. destruct (Nat.eqb_spec k g); congruence.
    + unfold fupd. destruct (Nat.eqb_spec r r0) as [->|]; cbn [lock]; [|exact Q]. rewrite Nat.eqb_refl in QK. destruct (lock (rq s r0)) as [h|]; cbn in *; [|lia]. destruct (Nat.eqb_spec h k); [|lia]. subst. rewrite Q. destruct (Nat.eqb_spec k g); congruence.
Qed.

(** ** states and deliveries *)
Definition phase (f : frame) : nat :=
  match f with FPr _ _ | FR2 _ _ => 1 | FB1 _ _ | FR1 _ _ | FB2 _ _ | FDl _ _ | FPf _ _ => 2 | _ => 0 end.
Definition fits (z : Z) (p : nat) : Prop :=
  match p with 0%nat => z <> RsPrepared | 1%nat => z <> RsPrepared /\ z <> RsPerformed | _ => z = RsPrepared end.
Definition known (z : Z) : Prop := z = RsNew \/ z = RsPending \/ z = RsInFly \/ z = RsPrepared \/ z = RsPerformed.
Record good (tr : list obs) (s : sys) : Prop := {
  q_jb : forall k, jb s k = None -> stk s k = [];
  q_locks : locks s;
  q_rng : forall r, known (state (rq s r));
  q_free : forall r, lock (rq s r) = None -> state (rq s r) <> RsPrepared;
  q_st : forall r g f, In f (stk s g) -> hold r f = 1%nat -> fits (state (rq s r)) (phase f);
  q_dlv : forall r, (length (delivered tr r) = 0%nat /\ state (rq s r) <> RsPerformed /\ forall g a, ~ In (FPf r a) (stk s g)) \/
                    (length (delivered tr r) = 1%nat /\ (state (rq s r) = RsPerformed \/ exists g a, In (FPf r a) (stk s g)));
  q_ul : forall r g c, In (FUl r (Fail c)) (stk s g) -> c <> RcTimeout -> length (delivered tr r) = 1%nat;
  q_rt : forall r g a, In (FR1 r a) (stk s g) \/ In (FR2 r a) (stk s g) -> code_of a = RcTimeout }.

Lemma holder_unique s k f rest r g f' : locks s -> stk s k = f :: rest -> hold r f = 1%nat -> In f' (stk s g) -> hold r f' = 1%nat -> g = k /\ f' = f /\ ~ In f' rest.
Proof.
  intros L E H I H'. pose proof (L r k) as Q. rewrite E in Q. cbn [cnt] in Q. rewrite H in Q. unfold is_holder in Q. destruct (lock (rq s r)) as [h|] eqn:LR; [|lia]. destruct (Nat.eqb_spec h k) as [->|]; [|lia].
  assert (g = k). { pose proof (L r g) as Q'. rewrite LR in Q'. cbn in Q'. pose proof (cnt_in _ _ _ I H'). destruct (Nat.eqb_spec k g); [congruence|lia]. } subst g. split; [reflexivity|]. rewrite E in I.
  assert (N : ~ In f' rest) by (intro J; pose proof (cnt_in _ _ _ J H'); lia). destruct I as [->|I]; [now split|contradiction].
Qed.
Lemma in_after s k f rest s1 fs g x : stk s k = f :: rest -> stk s1 = stk s -> In x (stk (set_stk s1 k (fs ++ rest)) g) -> g = k /\ In x fs \/ In x (stk s g) /\ (g <> k \/ In x rest).
Proof.
  intros E ES I. cbn in I. unfold fupd in I. destruct (Nat.eqb_spec g k) as [->|N]; [|rewrite ES in I; auto]. apply in_app_iff in I. destruct I as [I|I]; [auto|]. right. rewrite E. split; [now right|now right].
Qed.
Lemma in_kept s k f rest s1 fs g x : stk s k = f :: rest -> stk s1 = stk s -> In x (stk s g) -> x = f /\ g = k \/ In x (stk (set_stk s1 k (fs ++ rest)) g).
Proof.
  intros E ES I. cbn. unfold fupd. rewrite ES. destruct (Nat.eqb_spec g k) as [->|N]; [|auto]. rewrite E in I. destruct I as [->|I]; [auto|]. right. apply in_app_iff. auto.
Qed.
Lemma delivered_app a b r : delivered (a ++ b) r = delivered a r ++ delivered b r.
Proof. apply flat_map_app. Qed.

(** which requests a step changes, and how *)
Lemma eff_state s k f o fs s1 r : eff s k f o fs s1 ->
  state (rq s1 r) = state (rq s r) \/
  hold r f = 1%nat /\ (exists f', fs = [f'] /\ hold r f' = 1%nat) /\
  (phase f = 1%nat /\ (exists a, f = FPr r a) /\ state (rq s1 r) = RsPrepared \/ (exists a, f = FR1 r a) /\ state (rq s1 r) = RsPending \/ (exists a, f = FR2 r a) /\ state (rq s1 r) = RsInFly \/ (exists a, f = FPf r a) /\ state (rq s1 r) = RsPerformed).
Proof.
  destruct 1; try (now left); cbn; rewrite ?register_rq, ?unregister_rq; try (now left); unfold fupd; destruct (Nat.eqb_spec r r0) as [->|N]; cbn; try (now left); right; rewrite ?Nat.eqb_refl; (split; [reflexivity|]); (split; [eexists; split; [reflexivity|]; cbn; now rewrite Nat.eqb_refl|]); eauto 10.
Qed.
Lemma eff_phase s k f o fs s1 rest r f' tr : stk s k = f :: rest -> eff s k f o fs s1 -> good tr s -> In f' fs -> hold r f' = 1%nat -> fits (state (rq s1 r)) (phase f').
Proof.
  intros E H G I J. pose proof (q_st _ _ G r k f) as Q. rewrite E in Q. specialize (Q (or_introl eq_refl)). pose proof (q_free _ _ G r) as QF. pose proof (q_rng _ _ G r) as QR.
  destruct H; cbn [In] in I; try contradiction; repeat match goal with H : _ \/ _ |- _ => destruct H as [<-|I] end; try contradiction; rewrite ?cancel_hold in J; cbn [hold] in J, Q; try discriminate; (destruct (Nat.eqb_spec r0 r) as [->|]; [|discriminate]); try (specialize (Q eq_refl)); cbn [phase fits] in *; cbn [rq set_lock set_rq set_state]; rewrite ?fupd_same; cbn [state]; rewrite ?unregister_rq; auto; try discriminate.
  - unfold may in H. destruct QR as [QR|[QR|[QR|[QR|QR]]]]; rewrite QR in *; destruct a; cbn in H; split; discriminate.
  - split; discriminate.
  - apply Q.
Qed.
Lemma classic_dl f r : (exists a, f = FDl r a) \/ (forall a, f <> FDl r a).
Proof. destruct f as [| | | | | | | | | | | | | | | | | |q a| |]; try (now right). destruct (Nat.eq_dec q r) as [->|N]; [left; eauto|right; congruence]. Qed.
Lemma eff_good tr s k f o fs s1 rest : stk s k = f :: rest -> eff s k f o fs s1 -> good tr s -> good (tr ++ o) (set_stk s1 k (fs ++ rest)).
Proof.
  intros E H G. destruct (eff_stk _ _ _ _ _ _ H) as [ES EJ]. split.
  - intros g J. cbn in J |- *. rewrite EJ in J. unfold fupd. destruct (Nat.eqb_spec g k) as [->|]; [|rewrite ES; now apply (q_jb _ _ G)]. apply (q_jb _ _ G) in J. rewrite E in J. discriminate.
  - eapply eff_locks; eauto. apply G.
  - intro r. cbn [rq set_stk]. destruct (eff_state _ _ _ _ _ _ r H) as [Q|(_ & _ & Q)]; [rewrite Q; apply G|]. unfold known. destruct Q as [(_ & _ & Q)|[(_ & Q)|[(_ & Q)|(_ & Q)]]]; rewrite Q; auto 6.
  - intros r L. cbn [rq set_stk] in *. pose proof (eff_locks _ _ _ _ _ _ _ E H (q_locks _ _ G) r k) as LK. cbn [rq set_stk stk] in LK. rewrite fupd_same, L, cnt_app in LK. cbn in LK.
    destruct (eff_state _ _ _ _ _ _ r H) as [Q|(_ & (f' & -> & HF) & _)]; [|cbn in LK; lia]. rewrite Q.
    destruct H; cbn in *; rewrite ?register_rq, ?unregister_rq in *; try (now apply (q_free _ _ G)); revert L; unfold fupd; destruct (Nat.eqb_spec r r0) as [->|]; cbn; intro L; try (now apply (q_free _ _ G)); try discriminate.
    pose proof (q_st _ _ G r0 k (FUl r0 a)) as QS. rewrite E in QS. cbn in QS. rewrite Nat.eqb_refl in QS. apply QS; auto.
  - intros r g f' I HF. destruct (in_after _ _ _ _ _ _ _ _ E ES I) as [[-> I']|[I' NR]].
    + cbn [rq set_stk]. eapply eff_phase; eauto.
    + cbn [rq set_stk]. destruct (eff_state _ _ _ _ _ _ r H) as [Q|(HK & _)]; [rewrite Q; now apply (q_st _ _ G _ g)|]. destruct (holder_unique _ _ _ _ _ _ _ (q_locks _ _ G) E HK I' HF) as (-> & -> & N). destruct NR; contradiction.
  - intro r. rewrite delivered_app, app_length. cbn [rq set_stk]. pose proof (q_dlv _ _ G r) as QD.
    assert (HF : forall a, f = FDl r a -> state (rq s r) = RsPrepared /\ forall g b, ~ In (FPf r b) (stk s g)).
    { intros a ->. assert (HK : hold r (FDl r a) = 1%nat) by (cbn; now rewrite Nat.eqb_refl). split; [apply (q_st _ _ G r k (FDl r a)); [rewrite E; now left|exact HK]|]. intros g b I. destruct (holder_unique s k (FDl r a) rest r g _ (q_locks _ _ G) E HK I) as (_ & Q & _); [cbn; now rewrite Nat.eqb_refl|discriminate]. }
    destruct (eff_state _ _ _ _ _ _ r H) as [QS|(HK & _ & QS)].
    + rewrite QS. destruct (classic_dl f r) as [[a ->]|ND].
      * inversion H; subst. cbn. rewrite Nat.eqb_refl. destruct (HF _ eq_refl) as [S1 S2]. right. destruct QD as [(D & _)|(D & [P|(g & b & P)])]; [|rewrite S1 in P; discriminate|now apply S2 in P]. cbn. split; [lia|right]. exists k, a. cbn. rewrite fupd_same. now left.
      * assert (delivered o r = []) as ->. { destruct H; try reflexivity. cbn. destruct (Nat.eqb_spec r0 r) as [->|]; [|reflexivity]. now elim (ND a). } cbn [length]. rewrite Nat.add_0_r.
        destruct QD as [(D & P & NF)|(D & P)]; [left|right]; (split; [exact D|]).
        -- split; [exact P|]. intros g a I. destruct (in_after _ _ _ _ _ _ _ _ E ES I) as [[-> I']|[I' _]]; [|now apply NF in I']. destruct H; cbn in I'; repeat match goal with H : _ \/ _ |- _ => destruct H as [I'|I'] end; try discriminate; try contradiction; [destruct x; discriminate|destruct x; discriminate|]. injection I' as -> ->. now elim (ND a).
        -- destruct P as [P|(g & a & P)]; [now left|]. destruct (in_kept _ _ _ _ s1 fs _ _ E ES P) as [[Q ->]|Q]; [|right; eauto]. left. subst f. rewrite <- QS. inversion H; subst. cbn. now rewrite fupd_same.
    + assert (NF : forall g b, In (FPf r b) (stk s g) -> FPf r b = f) by (intros g b I; eapply (holder_unique s k _ rest r g _ (q_locks _ _ G) E HK I); cbn; now rewrite Nat.eqb_refl).
      pose proof (q_st _ _ G r k _ ltac:(rewrite E; now left) HK) as QP. assert (length (delivered o r) = 0%nat) as -> by (destruct QS as [(_ & (a & ->) & _)|[((a & ->) & _)|[((a & ->) & _)|((a & ->) & _)]]]; now inversion H). rewrite Nat.add_0_r.
      destruct QS as [(_ & (a & ->) & QS)|[((a & ->) & QS)|[((a & ->) & QS)|((a & ->) & QS)]]]; rewrite QS; cbn [phase fits] in QP.
      1-3: left; destruct QD as [(D & P & _)|(D & [P|(g & b & P)])]; [|exfalso; try (rewrite QP in P; discriminate); try (now apply QP in P)|now apply NF in P]; (split; [exact D|]); (split; [discriminate|]); intros g b I; destruct (in_after _ _ _ _ _ _ _ _ E ES I) as [[-> I']|[I' _]]; [|now apply NF in I']; inversion H; subst; destruct I' as [I'|[]]; discriminate.
      right. split; [|now left]. destruct QD as [(D & P & N)|(D & _)]; [|exact D]. exfalso. apply (N k a). rewrite E. now left.
  - intros r g c I NT. rewrite delivered_app, app_length. destruct (in_after _ _ _ _ _ _ _ _ E ES I) as [[-> I']|[I' _]].
    + assert (delivered o r = []) as -> by (destruct H; cbn in I' |- *; intuition discriminate). cbn. rewrite Nat.add_0_r.
      pose proof (q_st _ _ G r k f ltac:(rewrite E; now left)) as QP. pose proof (q_rng _ _ G r) as QR. pose proof (q_dlv _ _ G r) as QD.
      destruct H; cbn in I'; repeat match goal with H : _ \/ _ |- _ => destruct H as [I'|I'] end; try discriminate; try contradiction; try (destruct x; discriminate); injection I' as -> ->; cbn in QP; rewrite Nat.eqb_refl in QP; specialize (QP eq_refl).
      * destruct QD as [(D & P & _)|(D & _)]; [|exact D]. exfalso. unfold may in H. destruct QR as [QR|[QR|[QR|[QR|QR]]]]; rewrite QR in *; cbn in H; try discriminate; contradiction.
      * exfalso. apply NT. apply (q_rt _ _ G r k (Fail c)). right. rewrite E. now left.
      * exfalso. apply NT. apply (q_rt _ _ G r k (Fail c)). right. rewrite E. now left.
      * destruct QD as [(D & P & N)|(D & _)]; [|exact D]. exfalso. apply (N k (Fail c)). rewrite E. now left.
    + assert (length (delivered o r) = 0)%nat as ->; [|rewrite Nat.add_0_r; now apply (q_ul _ _ G) in I'].
      destruct H; try reflexivity. cbn. destruct (Nat.eqb_spec r0 r) as [->|]; [|reflexivity]. exfalso. destruct (holder_unique s k (FDl r a) rest r g _ (q_locks _ _ G) E ltac:(cbn; now rewrite Nat.eqb_refl) I') as (_ & Q & _); [cbn; now rewrite Nat.eqb_refl|discriminate].
  - intros r g a [I|I]; destruct (in_after _ _ _ _ _ _ _ _ E ES I) as [[-> I']|[I' _]]; try (apply (q_rt _ _ G r g a); auto).
    all: destruct H; cbn in I'; repeat match goal with H : _ \/ _ |- _ => destruct H as [I'|I'] end; try discriminate; try contradiction; try (destruct x; discriminate); injection I' as -> ->; try assumption.
    apply (q_rt _ _ G r k a). rewrite E. left. now left.
Qed.

(** ** all steps *)
Inductive calls (s : sys) (k : nat) : job -> frame -> list obs -> sys -> Prop :=
| c_new c r : cborn (cx s c) = true -> born (rq s r) = false -> calls s k (JNew c r) (FN0 c r) [ONew k c r] (set_born s r)
| c_child c d : cborn (cx s c) = true -> cborn (cx s d) = false -> calls s k (JChild c d) (FC0 c d) [OChild k c d] (set_par s d (Some c))
| c_cancel w c : calls s k (JCancel c) (FCas w c) [OCancel k c w] s
| c_done d : calls s k (JDone d) (FD0 d) [ODone d] s
| c_respond r a : made (rq s r) = true -> calls s k (JRespond r a) (FLk r a) [ORespond k r (code_of a)] s.
Inductive free (s : sys) : list obs -> sys -> Prop :=
| f_root c : cborn (cx s c) = false -> free s [] (set_par s c None)
| f_pend r : made (rq s r) = true -> state (rq s r) = RsNew -> free s [] (set_state s r RsPending)
| f_fly r : made (rq s r) = true -> state (rq s r) = RsPending -> free s [] (set_state s r RsInFly)
| f_handle r x : made (rq s r) = true -> state (rq s r) = RsPending -> lock (rq s r) = None -> cborn (cx s x) = false -> free s [OHandle r x] (set_hc (set_par s x None) r x).
Inductive move (s : sys) : list obs -> sys -> Prop :=
| m_none : move s [] s
| m_go k f rest o fs s1 : stk s k = f :: rest -> eff s k f o fs s1 -> move s o (set_stk s1 k (fs ++ rest))
| m_ret k j o s' : stk s k = [] -> jb s k = Some j -> ret s k j = (o, s') -> move s o s'
| m_call k j f o s1 : jb s k = None -> calls s k j f o s1 -> move s o (set_stk (set_jb s1 k (Some j)) k [f])
| m_free o s' : free s o s' -> move s o s'.
Lemma call_move s k j f o s1 : calls s k j f o s1 -> forall o' s', call s k j f o s1 = (o', s') -> move s o' s'.
Proof. intros C o' s'. unfold call. destruct (jb s k) eqn:J; intro E; injection E as <- <-; [constructor|]. now apply m_call. Qed.
Lemma step_move s e o s' : step s e = (o, s') -> move s o s'.
Proof.
  destruct e as [c|k c r|k c d|k c|k d|k r a|r|r|r x|k]; cbn [step].
  - destruct (cborn (cx s c)) eqn:B; intro E; injection E as <- <-; [constructor|]. apply m_free. now constructor.
  - destruct (cborn (cx s c)) eqn:B, (born (rq s r)) eqn:B'; cbn; try (intro E; injection E as <- <-; constructor). apply call_move. now constructor.
  - destruct (cborn (cx s c)) eqn:B, (cborn (cx s d)) eqn:B'; cbn; try (intro E; injection E as <- <-; constructor). apply call_move. now constructor.
  - destruct (cborn (cx s c)); [|intro E; injection E as <- <-; constructor]. apply call_move. constructor.
  - destruct (cborn (cx s d)); [|intro E; injection E as <- <-; constructor]. apply call_move. constructor.
  - destruct (made (rq s r)) eqn:M; [|intro E; injection E as <- <-; constructor]. apply call_move. now constructor.
  - intro E; injection E as <- <-. destruct (made (rq s r)) eqn:M, (Z.eqb_spec (state (rq s r)) RsNew) as [Q|]; cbn; try constructor. now apply f_pend.
  - intro E; injection E as <- <-. destruct (made (rq s r)) eqn:M, (Z.eqb_spec (state (rq s r)) RsPending) as [Q|]; cbn; try constructor. now apply f_fly.
  - destruct (lock (rq s r)) eqn:L; [intro E; injection E as <- <-; constructor|]. destruct (made (rq s r)) eqn:M, (Z.eqb_spec (state (rq s r)) RsPending) as [Q|], (cborn (cx s x)) eqn:B; cbn; intro E; injection E as <- <-; try constructor. now apply f_handle.
  - destruct (stk s k) as [|f rest] eqn:S.
    + destruct (jb s k) as [j|] eqn:J; [|intro E; injection E as <- <-; constructor]. intro E. now apply (m_ret _ k j).
    + intro E. destruct (go_spec s k f rest) as [Q|(o1 & fs & s1 & Q & H)]; rewrite Q in E; injection E as <- <-; [constructor|]. now apply (m_go _ k f).
Qed.

Lemma locks_eq s s' : stk s' = stk s -> (forall r, lock (rq s' r) = lock (rq s r)) -> locks s -> locks s'.
Proof. intros E F L r g. rewrite E, F. apply L. Qed.
Lemma good_frame tr o s s' : good tr s -> (forall r, lock (rq s' r) = lock (rq s r)) -> (forall r, delivered o r = []) ->
  (forall k, jb s' k = None -> stk s' k = []) -> (forall g r, cnt r (stk s' g) = cnt r (stk s g)) ->
  (forall g f r, In f (stk s' g) -> hold r f = 1%nat -> In f (stk s g)) -> (forall g f r, In f (stk s g) -> hold r f = 1%nat -> In f (stk s' g)) ->
  (forall r, state (rq s' r) = state (rq s r) \/ (state (rq s r) = RsNew \/ state (rq s r) = RsPending) /\ (state (rq s' r) = RsPending \/ state (rq s' r) = RsInFly)) -> good (tr ++ o) s'.
Proof.
  intros G L O J C N N' S. assert (HO : forall r, length (delivered (tr ++ o) r) = length (delivered tr r)) by (intro r; rewrite delivered_app, O, app_nil_r; reflexivity).
  assert (HR : forall r, hold r (FPf r (Fail 0)) = 1%nat) by (intro r; cbn; now rewrite Nat.eqb_refl).
  split; trivial.
  - intros r g. rewrite C, L. apply G.
  - intro r. destruct (S r) as [->|[_ [->| ->]]]; unfold known; auto 6. apply G.
  - intros r Q. rewrite L in Q. destruct (S r) as [->|[_ [->| ->]]]; try discriminate. now apply G.
  - intros r g f I H. pose proof (q_st _ _ G r g f (N _ _ _ I H) H) as F. destruct (S r) as [->|[P Q]]; [exact F|]. destruct (phase f) as [|[|p]]; cbn in *.
    + destruct Q as [->| ->]; discriminate.
    + destruct Q as [->| ->]; split; discriminate.
    + rewrite F in P. destruct P; discriminate.
  - intro r. rewrite HO. assert (E : (exists g a, In (FPf r a) (stk s g)) <-> (exists g a, In (FPf r a) (stk s' g))).
    { split; intros (g & a & I); exists g, a; [apply (N' _ _ r)|apply (N _ _ r)]; trivial; apply HR. }
    destruct (q_dlv _ _ G r) as [(D & P & F)|(D & P)]; [left|right]; (split; [exact D|]).
    + split; [destruct (S r) as [->|[_ [->| ->]]]; trivial; discriminate|]. intros g a I. destruct (proj2 E (ex_intro _ g (ex_intro _ a I))) as (g' & a' & I'). now apply F in I'.
    + destruct P as [P|P]; [|right; now apply E]. left. destruct (S r) as [->|[[Q|Q] _]]; [exact P| |]; rewrite P in Q; discriminate.
  - intros r g c I. rewrite HO. apply (q_ul _ _ G r g c). apply (N g _ r I). cbn. now rewrite Nat.eqb_refl.
  - intros r g a [I|I]; apply (q_rt _ _ G r g a); [left|right]; apply (N g _ r I); cbn; now rewrite Nat.eqb_refl.
Qed.
Lemma calls_stk s k j f o s1 : calls s k j f o s1 -> stk s1 = stk s /\ jb s1 = jb s /\ (forall r, hold r f = 0%nat) /\ (forall r, state (rq s1 r) = state (rq s r) /\ lock (rq s1 r) = lock (rq s r)) /\ forall r, delivered o r = [].
Proof. destruct 1; (repeat split; trivial); cbn; unfold fupd; destruct (Nat.eqb_spec r0 r) as [->|]; reflexivity. Qed.
Lemma ret_rq s k j o s' : ret s k j = (o, s') -> stk s' = stk s /\ jb s' = fupd (jb s) k None /\ cx s' = cx s /\ (forall r, delivered o r = []) /\
  forall r, state (rq s' r) = state (rq s r) /\ lock (rq s' r) = lock (rq s r) /\ own (rq s' r) = own (rq s r) /\ hc (rq s' r) = hc (rq s r) /\ born (rq s' r) = born (rq s r).
Proof. destruct j; cbn; intro E; injection E as <- <-; cbn; (repeat split; trivial); unfold fupd; destruct (Nat.eqb_spec r0 r) as [->|]; reflexivity. Qed.
Lemma move_good tr s o s' : move s o s' -> good tr s -> good (tr ++ o) s'.
Proof.
  intros M G. destruct M as [|k f rest o fs s1 E H|k j o s' E J R|k j f o s1 J C|o s' F].
  - now rewrite app_nil_r.
  - eapply eff_good; eauto.
  - destruct (ret_rq _ _ _ _ _ R) as (ES & EJ & EX & D & P). apply (good_frame _ _ s); trivial; try (intro r; apply P); rewrite ?ES, ?EJ; trivial.
    + intro g. unfold fupd. destruct (Nat.eqb_spec g k) as [->|]; intro Q; [exact E|now apply G].
    + intro r. left. apply P.
  - destruct (calls_stk _ _ _ _ _ _ C) as (ES & EJ & HF & P & D). pose proof (q_jb _ _ G _ J) as E. apply (good_frame _ _ s); trivial; try (intro r; apply P).
    + intro g. cbn. unfold fupd. destruct (Nat.eqb_spec g k) as [->|]; intro Q; [discriminate|]. rewrite EJ in Q. rewrite ES. now apply G.
    + intros g r. cbn. unfold fupd. destruct (Nat.eqb_spec g k) as [->|]; [|now rewrite ES]. rewrite E. cbn. rewrite HF. reflexivity.
    + intros g h r. cbn. unfold fupd. destruct (Nat.eqb_spec g k) as [->|]; intros I Q; [|now rewrite ES in I]. destruct I as [<-|[]]. rewrite HF in Q. discriminate.
    + intros g h r I Q. cbn. unfold fupd. destruct (Nat.eqb_spec g k) as [->|]; [|now rewrite ES]. rewrite E in I. destruct I.
    + intro r. left. apply P.
  - destruct F; (apply (good_frame _ _ s); [exact G| |reflexivity|apply G|trivial|trivial|trivial|]); intro q; cbn; unfold fupd; auto; destruct (Nat.eqb_spec q r) as [->|]; cbn; auto.
Qed.
Lemma good_init : good [] init.
Proof.
  split; cbn; try easy; intro r; try (now left).
  tauto.
Qed.

Lemma run_snoc s es e : run s (es ++ [e]) = let (t, s1) := run s es in let (o, s2) := step s1 e in (t ++ o, s2).
Proof.
  revert s. induction es as [|e' es IH]; intro s; cbn.
  - destruct (step s e) as [o s2]. now rewrite app_nil_r.
  - destruct (step s e') as [o' s'] eqn:Q. rewrite IH. destruct (run s' es) as [t s1]. destruct (step s1 e) as [o s2]. now rewrite app_assoc.
Qed.
(** every invariant of moves holds after every run *)
Lemma run_ind (P : list obs -> sys -> Prop) : P [] init -> (forall tr s o s', P tr s -> move s o s' -> P (tr ++ o) s') -> forall es tr s, run init es = (tr, s) -> P tr s.
Proof.
  intros P0 PS. induction es as [|e es IH] using rev_ind; intros tr s R; [cbn in R; injection R as <- <-; exact P0|].
  rewrite run_snoc in R. destruct (run init es) as [t s1]. destruct (step s1 e) as [o s2] eqn:Q. injection R as <- <-. apply step_move in Q. eapply PS; eauto.
Qed.
