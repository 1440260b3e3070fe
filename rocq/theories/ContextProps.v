(** Properties of Context. *)
From Coq Require Import List Bool Arith ZArith Lia Permutation.
Import ListNotations.
From Verif Require Import ContextModel ContextSpec ContextProofs.

Lemma start : forall es t s, run x_init es = (t, s) -> reach t s.
Proof. intros es t s H. apply (run_reach es [] x_init t s reach0 H). Qed.
Lemma obs_one : forall s o s', tr s o s' -> o = [] \/ exists x, o = [x].
Proof. intros s o s' T. destruct T; eauto. Qed.
Lemma snoc_split : forall (A : Type) (t : list A) o t1 x t2, t ++ [o] = t1 ++ x :: t2 -> (o = x /\ t1 = t /\ t2 = []) \/ exists t3, t2 = t3 ++ [o] /\ t = t1 ++ x :: t3.
Proof.
  intros A t o t1 x t2 H. destruct (exists_last (l := x :: t2)) as (y & z & E); [discriminate|].
  rewrite E, app_assoc in H. apply app_inj_tail in H as [H ->]. destruct y as [|y0 y]; cbn in E.
  - left. injection E as -> ->. rewrite app_nil_r in H. auto.
  - right. injection E as <- ->. exists y. split; auto.
Qed.
(** the moment of an observation *)
Lemma at_point : forall t s, reach t s -> forall t1 x t2, t = t1 ++ x :: t2 -> exists s1 s2, reach t1 s1 /\ tr s1 [x] s2.
Proof.
  intros t s R. induction R as [|t s e o s' R IH E]; intros t1 x t2 H; [destruct t1; discriminate|]. pose proof (step_tr _ _ _ _ E) as T.
  destruct (obs_one s o s' T) as [->|[y ->]].
  - rewrite app_nil_r in H. eauto.
  - apply snoc_split in H. destruct H as [(-> & -> & ->)|(t3 & -> & H)]; eauto.
Qed.
Lemma reach_prefix : forall t s, reach t s -> forall t1 x t2, t = t1 ++ x :: t2 -> exists s1, reach t1 s1.
Proof. intros. edestruct at_point as (s1 & _ & ? & _); eauto. Qed.

(** * Waiters *)
Record waits (t : list obs) (s : st) : Prop := {
  w_nd : NoDup (wq s);
  w_in : forall k, In k (wq s) <-> wp s k = WWait;
  w_call : forall k, In (OWaitCall k) t <-> wp s k <> W0;
  w_ret : forall k, In (OWaitRet k) t <-> wp s k = WEnd }.
Lemma waits_frame : forall t s o s', waits t s -> wq s' = wq s -> wp s' = wp s -> (forall k, ~ In (OWaitCall k) o) -> (forall k, ~ In (OWaitRet k) o) -> waits (t ++ o) s'.
Proof.
  intros t s o s' W E1 E2 N1 N2. constructor; rewrite ?E1, ?E2; try apply W; intros k; rewrite in_app_iff; specialize (N1 k); specialize (N2 k).
  - rewrite (w_call _ _ W). tauto.
  - rewrite (w_ret _ _ W). tauto.
Qed.
Lemma signal_waits : forall t s, waits t s -> waits t (signal s).
Proof.
  intros t s W. unfold signal. destruct (wq s) as [|k q] eqn:E; auto. pose proof (w_nd _ _ W) as N. rewrite E in N. inversion N as [|? ? Nk Nq]; subst.
  assert (Ek : wp s k = WWait) by (apply (w_in _ _ W); rewrite E; cbn; auto).
  constructor; fields; auto.
  - intros j. pose proof (w_in _ _ W j) as X. rewrite E in X. cbn in X. destruct (Nat.eq_dec j k) as [->|Y]; [rewrite upd_same|rewrite upd_other by auto].
    + split; [tauto|discriminate].
    + rewrite <- X. intuition congruence.
  - intros j. rewrite (w_call _ _ W). destruct (Nat.eq_dec j k) as [->|Y]; [rewrite upd_same, Ek|rewrite upd_other by auto; tauto]. split; discriminate.
  - intros j. rewrite (w_ret _ _ W). destruct (Nat.eq_dec j k) as [->|Y]; [rewrite upd_same, Ek|rewrite upd_other by auto; tauto]. split; discriminate.
Qed.
Lemma waits_step : forall t s o s', waits t s -> tr s o s' -> waits (t ++ o) s'.
Proof.
  intros t s o s' W T. destruct T; try (apply (waits_frame t s); fields; auto; cbn [In]; intros; intuition discriminate).
  - destruct (register_frame s c) as (F1 & F2 & F3 & F4 & F5 & F6). apply (waits_frame t s); fields; auto; cbn [In]; intros; intuition discriminate.
  - destruct (unregister_frame s c) as (F1 & F2 & F3 & F4 & F5 & F6). apply (waits_frame t s); fields; auto; cbn [In]; intros; intuition discriminate.
  - destruct (unregister_frame s c) as (F1 & F2 & F3 & F4 & F5 & F6). apply signal_waits. apply (waits_frame t s); fields; auto; cbn [In]; intros; intuition discriminate.
  - constructor; fields; try apply W; intros j; rewrite ?in_app_iff; cbn [In]; (destruct (Nat.eq_dec j k) as [->|Y]; [rewrite upd_same|rewrite upd_other by auto]).
    + rewrite (w_in _ _ W), H. split; discriminate.
    + apply (w_in _ _ W).
    + split; [discriminate|tauto].
    + rewrite (w_call _ _ W). intuition congruence.
    + rewrite (w_ret _ _ W), H. intuition discriminate.
    + rewrite (w_ret _ _ W). intuition discriminate.
  - constructor; fields; try apply W; intros j; rewrite ?in_app_iff; cbn [In]; (destruct (Nat.eq_dec j k) as [->|Y]; [rewrite upd_same|rewrite upd_other by auto]).
    + rewrite (w_in _ _ W). destruct H as [-> | ->]; split; discriminate.
    + apply (w_in _ _ W).
    + rewrite (w_call _ _ W). destruct H as [-> | ->]; intuition discriminate.
    + rewrite (w_call _ _ W). intuition discriminate.
    + tauto.
    + rewrite (w_ret _ _ W). intuition congruence.
  - rewrite app_nil_r. assert (Nk : ~ In k (wq s)) by (rewrite (w_in _ _ W); destruct H as [-> | ->]; discriminate). constructor; fields.
    + apply (Permutation_NoDup (l := k :: wq s)); [apply Permutation_cons_append|constructor; auto; apply W].
    + intros j. rewrite in_app_iff, (w_in _ _ W). cbn. destruct (Nat.eq_dec j k) as [->|Y]; [rewrite upd_same; tauto|rewrite upd_other by auto]. intuition congruence.
    + intros j. rewrite (w_call _ _ W). destruct (Nat.eq_dec j k) as [->|Y]; [rewrite upd_same|rewrite upd_other by auto; tauto]. destruct H as [-> | ->]; split; discriminate.
    + intros j. rewrite (w_ret _ _ W). destruct (Nat.eq_dec j k) as [->|Y]; [rewrite upd_same|rewrite upd_other by auto; tauto]. destruct H as [-> | ->]; split; discriminate.
Qed.
Lemma reach_waits : forall t s, reach t s -> waits t s.
Proof.
  induction 1; [|eapply waits_step; eauto using step_tr]. constructor; cbn; [constructor| | |]; intros k; split; try tauto; try discriminate; intros; congruence.
Qed.
(** with a single waiter: it waits only while something is registered *)
Definition active (p : wpc) : Prop := match p with W0 | WEnd => False | _ => True end.
Definition lone (s : st) : Prop := (forall i j, active (wp s i) -> active (wp s j) -> i = j) /\ (forall k, wp s k = WWait -> empty s = false).
Lemma lone_frame : forall s s', lone s -> wp s' = wp s -> empty s' = empty s -> lone s'.
Proof. intros s s' [A B] E1 E2. split; rewrite ?E1; auto. intros k H. rewrite E2. eauto. Qed.
Lemma register_nonempty : forall s c, core s -> empty (register s c) = false.
Proof.
  intros s c C. destruct (empty (register s c)) eqn:E; auto. exfalso. pose proof (in_register s c c) as H.
  assert (R : reg (register s c) = []); [|rewrite R in H; cbn in H; tauto].
  assert (C' : core (w_lock (register s c) (lock s))).
  { destruct (register_cnt s c (k_cnt _ C) (k_mp _ C)). destruct (register_frame s c) as (F1 & F2 & F3 & F4 & F5 & F6). constructor; fields; auto; rewrite ?F4; apply C. }
  apply (empty_reg _ C'). auto.
Qed.
Lemma lone_upd : forall s s' k p, lone s -> wp s' = upd (wp s) k p -> empty s' = empty s -> (active (wp s k) \/ ~ active p) -> (p = WWait -> empty s = false) -> lone s'.
Proof.
  intros s s' k p [A B] E1 E2 H1 H2. split; rewrite ?E1.
  - intros i j. destruct (Nat.eq_dec i k) as [->|Y]; [rewrite upd_same|rewrite upd_other by auto]; (destruct (Nat.eq_dec j k) as [->|Z]; [rewrite upd_same|rewrite upd_other by auto]); auto.
    + intros P Q. destruct H1; [auto|contradiction].
    + intros P Q. destruct H1; [auto|contradiction].
  - intros j. rewrite E2. destruct (Nat.eq_dec j k) as [->|Y]; [rewrite upd_same|rewrite upd_other by auto]; eauto.
Qed.
Lemma lone_tr : forall t s o s', reach t s -> lone s -> (forall k, o = [OWaitCall k] -> forall j, wp s j = W0 \/ wp s j = WEnd) -> tr s o s' -> lone s'.
Proof.
  intros t s o s' R L H T. pose proof (reach_core t s R) as C. pose proof (reach_waits t s R) as W.
  destruct T; try (apply (lone_frame s); auto; fail).
  - destruct (register_frame s c) as (F1 & F2 & F3 & F4 & F5 & F6); split; fields; rewrite F5; [apply L|intros; apply register_nonempty; auto].
  - destruct (unregister_frame s c) as (F1 & F2 & F3 & F4 & F5 & F6); split; rewrite F5; [apply L|intros; auto].
  - destruct (unregister_frame s c) as (F1 & F2 & F3 & F4 & F5 & F6).
    unfold signal; rewrite F3; destruct (wq s) as [|j q] eqn:Eq;
    [split; rewrite F5; [apply L|intros j Hj; apply (w_in _ _ W) in Hj; rewrite Eq in Hj; contradiction]|];
    assert (Ej : wp s j = WWait) by (apply (w_in _ _ W); rewrite Eq; cbn; auto);
    split; fields; rewrite F5;
    [ intros i1 i2; (destruct (Nat.eq_dec i1 j) as [->|Y]; [rewrite upd_same|rewrite upd_other by auto]); (destruct (Nat.eq_dec i2 j) as [->|Z]; [rewrite upd_same|rewrite upd_other by auto]); auto; intros P1 P2; apply L; auto; rewrite Ej; exact Logic.I
    | intros i1; destruct (Nat.eq_dec i1 j) as [->|Y]; [rewrite upd_same; discriminate|rewrite upd_other by auto]; intros Hi; exfalso; apply Y; apply L; [rewrite Hi|rewrite Ej]; exact Logic.I].
  - specialize (H k eq_refl). destruct L as [A B]. split; fields.
    + intros i j. destruct (Nat.eq_dec i k) as [->|Y]; [rewrite upd_same|rewrite upd_other by auto]; (destruct (Nat.eq_dec j k) as [->|Z]; [rewrite upd_same|rewrite upd_other by auto]); auto.
      * intros _ P. destruct (H j) as [Q|Q]; rewrite Q in P; contradiction.
      * intros P. destruct (H i) as [Q|Q]; rewrite Q in P; contradiction.
    + intros j. destruct (Nat.eq_dec j k) as [->|Y]; [rewrite upd_same; discriminate|rewrite upd_other by auto]. apply B.
  - apply (lone_upd s _ k WEnd); auto. discriminate.
  - apply (lone_upd s _ k WWait); auto. left. destruct H0 as [-> | ->]; exact Logic.I.
Qed.
Lemma wait_ev : forall s e s' k, step s e = ([OWaitCall k], s') -> e = Wait k.
Proof.
  intros s e s' k E. destruct e as [a g c|c|j|j|a|j|j]; cbn [step] in E; unfold step_add, step_wait, step_canc, ok in E;
   try (repeat match type of E with context [match ?x with _ => _ end] => destruct x end; discriminate).
  destruct (wp s j); try discriminate. injection E as -> _. auto.
Qed.
Lemma lone_run : forall es t s, reach t s -> lone s -> one_waiter s es -> lone (snd (run s es)).
Proof.
  induction es as [|e es IH]; intros t s R L O; cbn [run]; auto. destruct O as [O1 O2].
  destruct (step s e) as [o s1] eqn:E. cbn [snd] in O2. destruct (run s1 es) as [o2 s2] eqn:E2. cbn [snd].
  assert (L1 : lone s1). { apply (lone_tr t s o s1); auto; [|eapply step_tr; eauto]. intros k ->. apply (O1 k). eapply wait_ev; eauto. }
  specialize (IH (t ++ o) s1 (reachS _ _ _ _ _ R E) L1 O2). rewrite E2 in IH. auto.
Qed.
Lemma lone_init : lone x_init.
Proof. split; cbn; [tauto|discriminate]. Qed.

(** * C53: the registry *)
Lemma reg_registered : forall s c, In c (reg s) <-> c0 s = Some c \/ c1 s = Some c \/ In c (mp s).
Proof. intros s c. unfold reg. rewrite !in_app_iff. destruct (c0 s), (c1 s); cbn; intuition congruence. Qed.
Theorem C53_registry_exact : forall es t s, run x_init es = (t, s) -> fresh t ->
  Permutation (opt (c0 s) ++ opt (c1 s) ++ mp s) (pending t) /\ (empty s = true <-> pending t = []).
Proof.
  intros es t s H F. pose proof (start es t s H) as R. destruct (exact t s R F) as [N P]. split; [exact P|].
  rewrite (empty_reg s (reach_core t s R)). split; intros E.
  - rewrite E in P. apply Permutation_nil. auto.
  - rewrite E in P. apply Permutation_nil, Permutation_sym. auto.
Qed.
Theorem C53_waitall_waits_for_all : forall es t s t1 k t2, run x_init es = (t, s) -> fresh t -> t = t1 ++ OWaitRet k :: t2 -> pending t1 = [].
Proof.
  intros es t s t1 k t2 H F E. pose proof (start es t s H) as R. destruct (at_point t s R t1 _ t2 E) as (s1 & s2 & R1 & T).
  assert (F1 : fresh t1) by (rewrite E in F; eapply fresh_l; eauto). destruct (exact t1 s1 R1 F1) as [_ P].
  assert (Em : empty s1 = true). { remember [OWaitRet k] as o eqn:Eo. destruct T; try discriminate. auto. }
  rewrite (proj1 (empty_reg s1 (reach_core _ _ R1)) Em) in P. apply Permutation_nil. auto.
Qed.
Theorem C53_waitall_returns_partial : forall es t s k, run x_init es = (t, s) -> fresh t -> one_waiter x_init es ->
  pending t = [] -> (forall a, ~ adding t a) -> In (OWaitCall k) t -> In (OWaitRet k) (t ++ fst (run s [Waiter k])).
Proof.
  intros es t s k H F O P A I. pose proof (start es t s H) as R. pose proof (reach_core _ _ R) as C. pose proof (reach_waits _ _ R) as W. pose proof (reach_calls _ _ R) as Q.
  pose proof (lone_run es [] x_init reach0 lone_init O) as L. rewrite H in L. cbn [snd] in L.
  destruct (C53_registry_exact es t s H F) as [_ Em]. apply Em in P.
  assert (Lk : lock s = false).
  { destruct (lock s) eqn:El; auto. exfalso. apply (k_lock _ C) in El. destruct El as (a & g & c & El). apply (A a). exists c.
    split; [apply (q_key _ _ Q); rewrite El; auto|]. rewrite (q_ret _ _ Q). intros [_ X]. congruence. }
  apply in_app_iff. apply (w_call _ _ W) in I. cbn [run step]. unfold step_wait, ok. rewrite Lk, P. destruct (wp s k) eqn:E.
  - contradiction.
  - right. cbn. auto.
  - apply (proj2 L) in E. congruence.
  - right. cbn. auto.
  - left. apply (w_ret _ _ W). auto.
Qed.
(** two goroutines wait: Signal wakes one of them *)
Definition live (s : st) (es : list ev) : Prop := forall e, In e es -> internal e.
Definition idle (s : st) : Prop := (forall a, ap s a = A0 \/ ap s a = AEnd) /\ (forall k, wp s k = W0 \/ wp s k = WEnd \/ wp s k = WWait) /\ (forall k, kp s k = K0 \/ kp s k = KEnd).
Lemma idle_run : forall fs s, idle s -> (forall e, In e fs -> internal e) -> run s fs = ([], s).
Proof.
  induction fs as [|e fs IH]; intros s D I; cbn [run]; auto. assert (E : step s e = ([], s)).
  { pose proof (I e (or_introl eq_refl)) as Ie. destruct D as (D1 & D2 & D3). destruct e; try contradiction; cbn [step].
    - unfold step_add. destruct (D1 a) as [-> | ->]; auto.
    - unfold step_wait. destruct (D2 k) as [-> | [-> | ->]]; auto.
    - unfold step_canc. destruct (D3 k) as [-> | ->]; auto. }
  rewrite E, IH; auto. intros x Hx. apply I. cbn. auto.
Qed.
Theorem C53_two_waiters_refuted : exists es t s, run x_init es = (t, s) /\ fresh t /\ pending t = [] /\ (forall a, ~ adding t a) /\ In (OWaitCall 1) t /\
  forall fs, (forall e, In e fs -> internal e) -> ~ In (OWaitRet 1) (t ++ fst (run s fs)).
Proof.
  exists [Add 0 KRaw 7; Adder 0; Adder 0; Adder 0; Wait 0; Waiter 0; Wait 1; Waiter 1; Remove 7; Waiter 0]. eexists _, _. split; [vm_compute; reflexivity|].
  split; [repeat constructor; cbn; tauto|]. split; [reflexivity|]. split; [|split; [cbn; auto 10|]].
  - intros a (c & X & Y). cbn in X, Y. intuition; try discriminate. match goal with E : OAddCall _ _ = OAddCall _ _ |- _ => injection E as <- <- end. tauto.
  - intros fs I. rewrite idle_run; auto; [cbn; intuition discriminate|]. split; [|split]; cbn.
    + intros [|a]; auto.
    + intros [|[|a]]; auto.
    + auto.
Qed.
(** a canceler added twice: one RemoveCanceler is not enough *)
Theorem C53_added_twice_refuted : exists es t s, run x_init es = (t, s) /\ pending t = [] /\ c1 s = Some 7.
Proof. exists [Add 0 KRaw 7; Adder 0; Adder 0; Adder 0; Add 1 KRaw 7; Adder 1; Adder 1; Adder 1; Remove 7]. eexists _, _. split; [vm_compute; reflexivity|]. split; reflexivity. Qed.
(** more cancelers than fit in the array; the last of them is removed while WaitAll waits *)
Definition add (a : nat) (c : nat) : list ev := Add a KNew c :: repeat (Adder a) 4.
Definition ex53 : list ev := add 0 10 ++ add 1 11 ++ add 2 12 ++ add 3 13 ++ [Remove 11; Remove 12; Wait 0; Waiter 0; Remove 10] ++ add 4 14 ++ [Remove 14; Remove 13].
Example C53_ex : exists t s, run x_init ex53 = (t, s) /\ fresh t /\ pending t = [] /\ In (OWaitCall 0) t /\ wp s 0 = WAgain.
Proof. eexists _, _. split; [vm_compute; reflexivity|]. split; [repeat constructor; cbn; intuition discriminate|]. split; [reflexivity|]. split; [cbn; auto 40|reflexivity]. Qed.
Lemma one_waiter_none : forall es s, forallb (fun e => match e with Wait _ => false | _ => true end) es = true -> one_waiter s es.
Proof.
  induction es as [|e es IH]; cbn [one_waiter forallb]; auto. intros s H. apply andb_prop in H as [H1 H2]. split; auto. intros k ->. discriminate.
Qed.
Lemma one_waiter_app : forall es1 es2 s, one_waiter s es1 -> one_waiter (snd (run s es1)) es2 -> one_waiter s (es1 ++ es2).
Proof.
  induction es1 as [|e es IH]; cbn [one_waiter run app]; auto. intros es2 s [H1 H2] H3. split; auto. apply IH; auto.
  destruct (step s e) as [o s1]. cbn [snd] in *. destruct (run s1 es). auto.
Qed.
Example C53_ex_lone : one_waiter x_init ex53.
Proof.
  change ex53 with ((add 0 10 ++ add 1 11 ++ add 2 12 ++ add 3 13 ++ [Remove 11; Remove 12]) ++ Wait 0 :: ([Waiter 0; Remove 10] ++ add 4 14 ++ [Remove 14; Remove 13])).
  apply one_waiter_app; [apply one_waiter_none; reflexivity|]. split; [|apply one_waiter_none; reflexivity].
  intros k _ j. left. vm_compute. reflexivity.
Qed.

(** * C54, C77: Cancel *)
Record cancels (t : list obs) (s : st) : Prop := {
  n_dead : dead s = false -> forall k, ~ In (OSet k) t;
  n_set : forall k, In (OSet k) t -> kp s k <> K0 /\ kp s k <> KCas;
  n_ret : forall k, In (OCancelRet k) t <-> kp s k = KEnd;
  n_call : forall k, In (OCancelCall k) t <-> kp s k <> K0;
  n_add : forall a c, In (OAdd a c) t -> In c (reg s) \/ In (ORemove c) t;
  n_old : forall t1 t2 k, t = t1 ++ OSet k :: t2 -> forall a c, In (OAdd a c) t1 ->
      match kp s k with KCnt => (c0 s = Some c \/ c1 s = Some c) \/ In (ORemove c) t | KEnd => In (ORemove c) t | _ => True end;
  n_new : forall t1 t2 k, t = t1 ++ OSet k :: t2 -> forall a c, (In (OAdd a c) t \/ exists g, ap s a = AReg g c) -> In (OAddCall a c) t1 }.
Lemma register_slots : forall s c x, (c0 s = Some x \/ c1 s = Some x) -> c0 (register s c) = Some x \/ c1 (register s c) = Some x.
Proof. intros s c x. unfold register. destruct (c0 s) eqn:E0, (c1 s) eqn:E1; fields; intuition congruence. Qed.
Lemma unregister_slots : forall s c x, x <> c -> (c0 s = Some x \/ c1 s = Some x) -> c0 (unregister s c) = Some x \/ c1 (unregister s c) = Some x.
Proof.
  intros s c x N. unfold unregister. destruct (is_some (c0 s) c) eqn:E0; [|destruct (is_some (c1 s) c) eqn:E1]; fields; auto.
  - destruct (c0 s); [|discriminate]. apply Nat.eqb_eq in E0. intuition congruence.
  - destruct (c1 s); [|discriminate]. apply Nat.eqb_eq in E1. intuition congruence.
Qed.
Lemma in_snoc : forall (t : list obs) o x, In x (t ++ [o]) <-> In x t \/ o = x.
Proof. intros. rewrite in_app_iff. cbn. tauto. Qed.
(** steps which concern no canceller *)
Lemma cancels_frame : forall t s o s', cancels t s -> (o = [] \/ exists x, o = [x] /\ (forall k, x <> OSet k /\ x <> OCancelRet k /\ x <> OCancelCall k)) ->
  dead s' = dead s -> kp s' = kp s ->
  (forall a c, In (OAdd a c) (t ++ o) -> In c (reg s') \/ In (ORemove c) (t ++ o)) ->
  (forall c, (c0 s = Some c \/ c1 s = Some c) -> (c0 s' = Some c \/ c1 s' = Some c) \/ In (ORemove c) (t ++ o)) ->
  (forall a c, In (OAdd a c) (t ++ o) -> In (OAdd a c) t \/ exists g, ap s a = AReg g c) ->
  (forall a g c, ap s' a = AReg g c -> ap s a = AReg g c \/ dead s = false) -> cancels (t ++ o) s'.
Proof.
  intros t s o s' N O E1 E2 H1 H2 H3 H4.
  assert (I1 : forall k, In (OSet k) (t ++ o) <-> In (OSet k) t) by (intros k; destruct O as [->|(x & -> & X)]; [rewrite app_nil_r; tauto|]; rewrite in_snoc; specialize (X k); intuition congruence).
  assert (I2 : forall k, In (OCancelRet k) (t ++ o) <-> In (OCancelRet k) t) by (intros k; destruct O as [->|(x & -> & X)]; [rewrite app_nil_r; tauto|]; rewrite in_snoc; specialize (X k); intuition congruence).
  assert (I3 : forall k, In (OCancelCall k) (t ++ o) <-> In (OCancelCall k) t) by (intros k; destruct O as [->|(x & -> & X)]; [rewrite app_nil_r; tauto|]; rewrite in_snoc; specialize (X k); intuition congruence).
  assert (Sp : forall t1 t2 k, t ++ o = t1 ++ OSet k :: t2 -> exists t3, t = t1 ++ OSet k :: t3).
  { intros t1 t2 k H. destruct O as [->|(x & -> & X)]; [rewrite app_nil_r in H; eauto|]. apply snoc_split in H. destruct H as [(-> & _)|(t3 & _ & ->)]; eauto. destruct (X k) as [X1 _]. congruence. }
  constructor; rewrite ?E1, ?E2; auto.
  - intros D k. rewrite I1. apply (n_dead _ _ N); auto.
  - intros k. rewrite I1. apply (n_set _ _ N).
  - intros k. rewrite I2. apply (n_ret _ _ N).
  - intros k. rewrite I3. apply (n_call _ _ N).
  - intros t1 t2 k H a c Ha. destruct (Sp _ _ _ H) as [t3 H']. pose proof (n_old _ _ N t1 t3 k H' a c Ha) as P. destruct (kp s k); auto; rewrite ?in_app_iff in *; [|tauto].
    destruct P as [P|P]; [|tauto]. specialize (H2 c P). rewrite in_app_iff in H2. tauto.
  - intros t1 t2 k H a c Ha. destruct (Sp _ _ _ H) as [t3 H']. apply (n_new _ _ N t1 t3 k H' a c). destruct Ha as [Ha|[g Ha]]; [auto|].
    destruct (H4 _ _ _ Ha) as [X|X]; [eauto|]. exfalso. apply (n_dead _ _ N X k). rewrite H'. apply in_elt.
Qed.
(** steps of canceller k other than the change of the state *)
Lemma cancels_k : forall t s o k p, cancels t s -> (o = [] \/ (o = [OCancelRet k] /\ p = KEnd) \/ (exists c, o = [OCancel c]) \/ (o = [OCancelCall k] /\ kp s k = K0)) -> p <> K0 ->
  kp s k <> KEnd -> (kp s k = K0 -> o <> []) -> (kp s k = K0 -> o = [OCancelCall k]) -> (p = KEnd <-> o = [OCancelRet k]) -> (p = KCas -> kp s k = K0) ->
  (In (OSet k) t -> forall a c, In (OAdd a c) t -> match p with KCnt => (c0 s = Some c \/ c1 s = Some c) \/ In (ORemove c) t | KEnd => (forall t1 t2, t = t1 ++ OSet k :: t2 -> In (OAdd a c) t1 -> In (ORemove c) t) | _ => True end) ->
  cancels (t ++ o) (w_kp s k p).
Proof.
  intros t s o k p N O P0 Pe O0 O1 Pr Pc H.
  assert (I0 : forall x, (forall j, x <> OCancelRet j /\ x <> OCancelCall j) -> (forall c, x <> OCancel c) -> In x (t ++ o) <-> In x t).
  { intros x X Y. destruct O as [->|[[-> _]|[[c ->]|[-> _]]]]; [rewrite app_nil_r; tauto| | |]; rewrite in_snoc; specialize (X k); try specialize (Y c); intuition congruence. }
  assert (Sp : forall t1 t2 j, t ++ o = t1 ++ OSet j :: t2 -> exists t3, t = t1 ++ OSet j :: t3).
  { intros t1 t2 j E. destruct O as [->|[[-> _]|[[c ->]|[-> _]]]]; [rewrite app_nil_r in E; eauto| | |]; apply snoc_split in E; destruct E as [(E & _)|(t3 & _ & ->)]; eauto; discriminate. }
  constructor; fields.
  - intros D j. rewrite I0 by (intros; try split; discriminate). apply (n_dead _ _ N); auto.
  - intros j. rewrite I0 by (intros; try split; discriminate). intros X. destruct (n_set _ _ N j X) as [Y1 Y2]. destruct (Nat.eq_dec j k) as [->|Z]; [rewrite upd_same|rewrite upd_other by auto; auto].
    split; auto.
  - intros j. rewrite in_app_iff, (n_ret _ _ N). destruct (Nat.eq_dec j k) as [->|Z]; [rewrite upd_same|rewrite upd_other by auto].
    + rewrite Pr. split; [intros [X|X]; [contradiction|]|intros ->; right; cbn; auto].
      destruct O as [->|[[-> _]|[[c ->]|[-> _]]]]; cbn in X; intuition congruence.
    + split; [intros [X|X]; auto|auto]. destruct O as [->|[[-> _]|[[c ->]|[-> _]]]]; cbn in X; intuition congruence.
  - intros j. rewrite in_app_iff, (n_call _ _ N). destruct (Nat.eq_dec j k) as [->|Z]; [rewrite upd_same|rewrite upd_other by auto].
    + split; [auto|intros _]. destruct (kp s k) eqn:E; try (left; discriminate). right. rewrite (O1 eq_refl). cbn. auto.
    + split; [intros [X|X]; auto|auto]. destruct O as [->|[[-> _]|[[c ->]|[-> _]]]]; cbn in X; intuition congruence.
  - intros a c. rewrite !I0 by (intros; try split; discriminate). apply (n_add _ _ N).
  - intros t1 t2 j E a c Ha. destruct (Sp _ _ _ E) as [t3 E']. assert (Hj : In (OSet j) t) by (rewrite E'; apply in_elt). assert (Ht : In (OAdd a c) t) by (rewrite E'; apply in_app_iff; auto).
    destruct (Nat.eq_dec j k) as [->|Z]; [rewrite upd_same|rewrite upd_other by auto].
    + specialize (H Hj a c Ht). destruct p; auto; rewrite I0 by (intros; try split; discriminate); eauto.
    + pose proof (n_old _ _ N t1 t3 j E' a c Ha) as X. destruct (kp s j); auto; rewrite I0 by (intros; try split; discriminate); auto.
  - intros t1 t2 j E a c. rewrite I0 by (intros; try split; discriminate). destruct (Sp _ _ _ E) as [t3 E']. apply (n_new _ _ N t1 t3 j E').
Qed.
Lemma cancels_set : forall t s k, cancels t s -> calls t s -> kp s k = KCas -> dead s = false -> cancels (t ++ [OSet k]) (w_kp (w_dead s true) k KMap).
Proof.
  intros t s k N Q K D. pose proof (n_dead _ _ N D) as No.
  assert (I0 : forall x, (forall j, x <> OSet j) -> In x (t ++ [OSet k]) <-> In x t) by (intros x X; rewrite in_snoc; specialize (X k); intuition congruence).
  assert (Sp : forall t1 t2 j, t ++ [OSet k] = t1 ++ OSet j :: t2 -> j = k /\ t1 = t).
  { intros t1 t2 j E. apply snoc_split in E. destruct E as [(E & -> & _)|(t3 & _ & E)]; [split; congruence|]. exfalso. apply (No j). rewrite E. apply in_elt. }
  constructor; fields.
  - discriminate.
  - intros j. rewrite in_snoc. intros [X|X]; [apply No in X; contradiction|]. injection X as <-. rewrite upd_same. split; discriminate.
  - intros j. rewrite I0 by discriminate. rewrite (n_ret _ _ N). destruct (Nat.eq_dec j k) as [->|Z]; [rewrite upd_same, K; split; discriminate|rewrite upd_other by auto; tauto].
  - intros j. rewrite I0 by discriminate. rewrite (n_call _ _ N). destruct (Nat.eq_dec j k) as [->|Z]; [rewrite upd_same, K; split; discriminate|rewrite upd_other by auto; tauto].
  - intros a c. rewrite !I0 by discriminate. apply (n_add _ _ N).
  - intros t1 t2 j E a c Ha. destruct (Sp _ _ _ E) as [-> ->]. rewrite upd_same. exact Logic.I.
  - intros t1 t2 j E a c. rewrite I0 by discriminate. destruct (Sp _ _ _ E) as [-> ->]. intros [X|[g X]]; [apply (q_add _ _ Q a c X)|]. apply (q_key _ _ Q). rewrite X. auto.
Qed.
Lemma empty_slots : forall s c, core s -> (cnt s <= 0)%Z -> (c0 s = Some c \/ c1 s = Some c) -> False.
Proof. intros s c C H X. rewrite (k_cnt _ C) in H. destruct (c0 s), (c1 s); cbn [nsome] in H; try lia; intuition discriminate. Qed.
Lemma cancels_step : forall t s o s', reach t s -> cancels t s -> tr s o s' -> cancels (t ++ o) s'.
Proof.
  intros t s o s' R N T. pose proof (reach_core t s R) as C. pose proof (reach_calls t s R) as Q.
  assert (In0 : forall c, In (ORemove c) t -> forall o, In (ORemove c) (t ++ o)) by (intros; apply in_app_iff; auto).
  destruct T.
  - apply (cancels_frame t s); rewrite ?app_nil_r; auto. apply (n_add _ _ N).
  - apply (cancels_frame t s); fields; auto; try (right; eexists; split; [reflexivity|intros; repeat split; discriminate]).
    + intros b x. rewrite !in_snoc. intros [X|X]; [|discriminate]. destruct (n_add _ _ N b x X); auto.
    + intros b x. rewrite in_snoc. intros [X|X]; [auto|discriminate].
    + intros b g' x. destruct (Nat.eq_dec b a) as [->|Z]; [rewrite upd_same; destruct H0; subst; discriminate|rewrite upd_other by auto; auto].
  - apply (cancels_frame t s); fields; rewrite ?app_nil_r; auto; [apply (n_add _ _ N)|].
    intros b g' x. destruct (Nat.eq_dec b a) as [->|Z]; [rewrite upd_same; destruct (dead s); discriminate|rewrite upd_other by auto; auto].
  - apply (cancels_frame t s); fields; rewrite ?app_nil_r; auto; apply (n_add _ _ N).
  - apply (cancels_frame t s); fields; rewrite ?app_nil_r; auto; [apply (n_add _ _ N)|].
    intros b g' x. destruct (Nat.eq_dec b a) as [->|Z]; [rewrite upd_same; discriminate|rewrite upd_other by auto; auto].
  - destruct (register_frame s c) as (F1 & F2 & F3 & F4 & F5 & F6).
    apply (cancels_frame t s); fields; auto; try (right; eexists; split; [reflexivity|intros; repeat split; discriminate]).
    + intros b x. change (reg (w_ap (w_lock (register s c) false) a (ARet g c))) with (reg (register s c)). rewrite !in_snoc, in_register.
      intros [X|X]; [destruct (n_add _ _ N b x X); auto|]. injection X as -> ->. auto.
    + intros x X. left. apply register_slots. auto.
    + intros b x. rewrite in_snoc. intros [X|X]; [auto|]. injection X as -> ->. eauto.
    + intros b g' x. rewrite F4. destruct (Nat.eq_dec b a) as [->|Z]; [rewrite upd_same; discriminate|rewrite upd_other by auto; auto].
  - apply (cancels_frame t s); fields; auto; try (right; eexists; split; [reflexivity|intros; repeat split; discriminate]).
    + intros b x. rewrite !in_snoc. intros [X|X]; [|discriminate]. destruct (n_add _ _ N b x X); auto.
    + intros b x. rewrite in_snoc. intros [X|X]; [auto|discriminate].
    + intros b g' x. destruct (Nat.eq_dec b a) as [->|Z]; [rewrite upd_same; discriminate|rewrite upd_other by auto; auto].
  - apply (cancels_frame t s); fields; auto; try (right; eexists; split; [reflexivity|intros; repeat split; discriminate]).
    + intros b x. rewrite !in_snoc. intros [X|X]; [|discriminate]. destruct (n_add _ _ N b x X); auto.
    + intros b x. rewrite in_snoc. intros [X|X]; [auto|discriminate].
    + intros b g' x. destruct (Nat.eq_dec b a) as [->|Z]; [rewrite upd_same; discriminate|rewrite upd_other by auto; auto].
  - destruct (unregister_frame s c) as (F1 & F2 & F3 & F4 & F5 & F6).
    apply (cancels_frame t s); auto; try (right; eexists; split; [reflexivity|intros; repeat split; discriminate]).
    + intros b x. rewrite !in_snoc. intros [X|X]; [|discriminate]. destruct (Nat.eq_dec x c) as [->|Z]; [auto|]. rewrite in_unregister by auto. destruct (n_add _ _ N b x X); auto.
    + intros x X. rewrite in_snoc. destruct (Nat.eq_dec x c) as [->|Z]; [auto|]. left. apply unregister_slots; auto.
    + intros b x. rewrite in_snoc. intros [X|X]; [auto|discriminate].
    + intros b g' x. rewrite F4. auto.
  - destruct (unregister_frame s c) as (F1 & F2 & F3 & F4 & F5 & F6). destruct (signal_reg (unregister s c)) as (S1 & S2 & S3 & S4 & S5).
    apply (cancels_frame t s); try congruence; try (right; eexists; split; [reflexivity|intros; repeat split; discriminate]).
    + intros b x. rewrite (reg_same _ _ S1), !in_snoc. intros [X|X]; [|discriminate]. destruct (Nat.eq_dec x c) as [->|Z]; [auto|]. rewrite in_unregister by auto. destruct (n_add _ _ N b x X); auto.
    + destruct S1 as (A1 & A2 & _). intros x X. rewrite A1, A2, in_snoc. destruct (Nat.eq_dec x c) as [->|Z]; [auto|]. left. apply unregister_slots; auto.
    + intros b x. rewrite in_snoc. intros [X|X]; [auto|discriminate].
    + intros b g' x. rewrite S4, F4. auto.
  - apply (cancels_frame t s); fields; auto; try (right; eexists; split; [reflexivity|intros; repeat split; discriminate]).
    + intros b x. rewrite !in_snoc. intros [X|X]; [|discriminate]. destruct (n_add _ _ N b x X); auto.
    + intros b x. rewrite in_snoc. intros [X|X]; [auto|discriminate].
  - apply (cancels_frame t s); fields; auto; try (right; eexists; split; [reflexivity|intros; repeat split; discriminate]).
    + intros b x. rewrite !in_snoc. intros [X|X]; [|discriminate]. destruct (n_add _ _ N b x X); auto.
    + intros b x. rewrite in_snoc. intros [X|X]; [auto|discriminate].
  - apply (cancels_frame t s); fields; rewrite ?app_nil_r; auto. apply (n_add _ _ N).
  - apply cancels_k; auto; try discriminate; try congruence. 
    + split; discriminate.
  - apply cancels_k; auto; try discriminate; try congruence; try (split; auto; fail). intros Y. apply (n_set _ _ N) in Y. tauto.
  - apply cancels_set; auto.
  - destruct (mp s) eqn:Em.
    + apply cancels_k; auto; try discriminate; try congruence; [split; discriminate|]. intros Y a c Ha. destruct (n_add _ _ N a c Ha) as [X|X]; auto. left.
      apply reg_registered in X. rewrite Em in X. cbn in X. tauto.
    + apply cancels_k; auto; try discriminate; try congruence; split; discriminate.
  - apply cancels_k; auto; try discriminate; try congruence; split; discriminate.
  - apply cancels_k; auto; try discriminate; try congruence; [split; auto|]. intros Y a c Ha t1 t2 E X. pose proof (n_old _ _ N t1 t2 k E a c X) as P. rewrite H in P.
    destruct P as [P|P]; auto. exfalso. eapply empty_slots; eauto.
  - apply cancels_k; auto; try discriminate; try congruence; split; discriminate.
  - apply cancels_k; auto; try discriminate; try congruence; split; discriminate.
  - apply cancels_k; eauto; try discriminate; try congruence; split; discriminate.
Qed.
Lemma reach_cancels : forall t s, reach t s -> cancels t s.
Proof.
  induction 1; [|eapply cancels_step; eauto using step_tr]. constructor; cbn; try tauto; try (intros; split; try tauto; try discriminate; congruence).
  - intros t1 t2 k E. destruct t1; discriminate.
Qed.

(** the call that changes the state of the context waits for the removal of everything registered before *)
Theorem C77_cancel_waits : forall es t s t1 t2 k a c, run x_init es = (t, s) -> t = t1 ++ OSet k :: t2 -> In (OAdd a c) t1 ->
  In (OCancelRet k) t -> In (ORemove c) t.
Proof.
  intros es t s t1 t2 k a c H E Ha Hr. pose proof (reach_cancels t s (start es t s H)) as N. apply (n_ret _ _ N) in Hr.
  pose proof (n_old _ _ N t1 t2 k E a c Ha) as P. rewrite Hr in P. auto.
Qed.
(** calls that register something and returned before the context was cancelled, or began afterwards *)
Theorem C54_cancelled_or_removed_partial : forall es t s t1 t2 k a c, run x_init es = (t, s) -> t = t1 ++ OSet k :: t2 -> In (OCancelRet k) t ->
  In (OAddRet a c) t -> (In (OAddRet a c) t1 \/ ~ In (OAddCall a c) t1) -> In (OCancel c) t \/ In (ORemove c) t.
Proof.
  intros es t s t1 t2 k a c H E Hr Ha O. pose proof (start es t s H) as R. pose proof (reach_cancels t s R) as N. pose proof (reach_calls t s R) as Q.
  pose proof (proj1 (q_ret _ _ Q a c) Ha) as [Hc He]. pose proof (q_done _ _ Q a c Hc) as D. rewrite He in D. destruct D as [D|D]; [|auto].
  pose proof (n_new _ _ N t1 t2 k E a c (or_introl D)) as Hc1. destruct O as [O|O]; [|contradiction].
  destruct (reach_prefix t s R t1 _ t2 E) as [s1 R1]. pose proof (reach_calls t1 s1 R1) as Q1. apply (q_ret _ _ Q1) in O. destruct O as [_ He1].
  pose proof (q_done _ _ Q1 a c Hc1) as D1. rewrite He1 in D1. destruct D1 as [D1|D1].
  - right. eapply C77_cancel_waits; eauto.
  - left. rewrite E. apply in_app_iff. auto.
Qed.
(** AddCanceler reads the state, Cancel finds nothing to cancel and returns, AddCanceler registers *)
Theorem C54_overlapping_add_refuted : exists es t s, run x_init es = (t, s) /\ In (OSet 0) t /\ In (OCancelRet 0) t /\ In (OAddRet 0 7) t /\
  forall fs, (forall e, In e fs -> internal e) -> ~ In (OCancel 7) (t ++ fst (run s fs)) /\ ~ In (ORemove 7) (t ++ fst (run s fs)).
Proof.
  exists [Add 0 KNew 7; Adder 0; Adder 0; Cancel 0; Canc 0; Canc 0; Canc 0; Adder 0; Adder 0]. eexists _, _. split; [vm_compute; reflexivity|].
  split; [cbn; auto 10|]. split; [cbn; auto 10|]. split; [cbn; auto 10|].
  intros fs I. rewrite idle_run; auto; [cbn; split; intuition discriminate|]. split; [|split]; cbn.
  - intros [|a]; auto.
  - auto.
  - intros [|k]; auto.
Qed.
(** a second call of Cancel returns at once *)
Theorem C54_second_caller_refuted : exists es t s, run x_init es = (t, s) /\ In (OAddRet 0 7) t /\ In (OCancelRet 1) t /\ ~ In (OCancel 7) t /\ ~ In (ORemove 7) t.
Proof.
  exists (add 0 7 ++ [Cancel 0; Canc 0; Cancel 1; Canc 1]). eexists _, _. split; [vm_compute; reflexivity|]. split; [cbn; auto 10|]. split; [cbn; auto 10|].
  cbn. split; intuition discriminate.
Qed.
Definition ex54 : list ev := add 0 7 ++ add 1 8 ++ add 2 9 ++ [Cancel 3] ++ repeat (Canc 3) 4 ++ [Remove 7; Canc 3; Remove 8; Canc 3; Remove 9] ++ add 4 20 ++ repeat (Canc 3) 6.
Example C54_ex : fst (run x_init ex54) = [OAddCall 0 7; OAdd 0 7; OAddRet 0 7; OAddCall 1 8; OAdd 1 8; OAddRet 1 8; OAddCall 2 9; OAdd 2 9; OAddRet 2 9;
  OCancelCall 3; OSet 3; OCancel 7; ORemove 7; OCancel 8; ORemove 8; OCancel 9; ORemove 9; OAddCall 4 20; OCancel 20; OAddRet 4 20; OCancelRet 3].
Proof. vm_compute. reflexivity. Qed.

(** * C55: Go *)
Theorem C55_go_never_starts_refuted : forall es t s c, run x_init es = (t, s) -> ~ In (OStart c) t.
Proof.
  intros es t s c H. pose proof (start es t s H) as R. clear H. induction R as [|t s e o s' R IH E]; [cbn; auto|]. rewrite in_app_iff. intros [X|X]; auto.
  pose proof (step_tr _ _ _ _ E) as T. destruct T; cbn in X; intuition discriminate.
Qed.
Record quiet (t : list obs) (s : st) : Prop := { u_dead : dead s = false; u_k : forall k, kp s k = K0; u_a : forall a g c, ap s a <> ACancel g c; u_c : forall c, ~ In (OCancel c) t }.
Lemma quiet_reach : forall t s, reach t s -> (forall k, ~ In (OCancelCall k) t) -> quiet t s.
Proof.
  intros t s R. induction R as [|t s e o s' R IH E]; [intros _; constructor; cbn; auto; discriminate|]. intros H.
  assert (Q : quiet t s) by (apply IH; intros k X; apply (H k); apply in_app_iff; auto). pose proof (step_tr _ _ _ _ E) as T. clear E.
  assert (Oc : forall c, ~ In (OCancel c) o).
  { intros x X. destruct T; cbn in X; try (intuition discriminate); [apply (u_a _ _ Q) in H0; auto|]. pose proof (u_k _ _ Q k). congruence. }
  assert (Oc' : forall c, ~ In (OCancel c) (t ++ o)) by (intros x; rewrite in_app_iff; intros [X|X]; [apply (u_c _ _ Q) in X; auto|apply (Oc x X)]).
  destruct Q as [Q1 Q2 Q3 Q4].
  destruct T; try (pose proof (Q2 k); congruence); try (exfalso; apply (H k); apply in_app_iff; cbn; auto; fail).
  - constructor; auto.
  - constructor; fields; auto. intros b g' x. destruct (Nat.eq_dec b a) as [->|Z]; [rewrite upd_same; destruct H1; subst; discriminate|rewrite upd_other by auto; auto].
  - constructor; fields; auto. intros b g' x. rewrite Q1. destruct (Nat.eq_dec b a) as [->|Z]; [rewrite upd_same; discriminate|rewrite upd_other by auto; auto].
  - constructor; fields; auto. intros b g' x. destruct (Nat.eq_dec b a) as [->|Z]; [rewrite upd_same; discriminate|rewrite upd_other by auto; auto].
  - congruence.
  - destruct (register_frame s c) as (F1 & F2 & F3 & F4 & F5 & F6). constructor; fields; auto; rewrite ?F1, ?F4, ?F6; auto.
    intros b g' x. destruct (Nat.eq_dec b a) as [->|Z]; [rewrite upd_same; discriminate|rewrite upd_other by auto; auto].
  - exfalso. eapply Q3; eauto.
  - constructor; fields; auto. intros b g' x. destruct (Nat.eq_dec b a) as [->|Z]; [rewrite upd_same; discriminate|rewrite upd_other by auto; auto].
  - destruct (unregister_frame s c) as (F1 & F2 & F3 & F4 & F5 & F6). constructor; rewrite ?F1, ?F4, ?F6; auto.
  - destruct (unregister_frame s c) as (F1 & F2 & F3 & F4 & F5 & F6). destruct (signal_reg (unregister s c)) as (S1 & S2 & S3 & S4 & S5).
    constructor; rewrite ?S2, ?S4, ?S5, ?F1, ?F4, ?F6; auto.
  - constructor; auto.
  - constructor; auto.
  - constructor; auto.
Qed.
(** what does hold: the child is registered, so that cancelling the context reaches it *)
Theorem C55_child_registered_partial : forall es t s a c, run x_init es = (t, s) -> (forall k, ~ In (OCancelCall k) t) -> In (OAddRet a c) t -> In (OAdd a c) t.
Proof.
  intros es t s a c H N Ha. pose proof (start es t s H) as R. pose proof (reach_calls t s R) as Q. apply (q_ret _ _ Q) in Ha. destruct Ha as [Hc He].
  pose proof (q_done _ _ Q a c Hc) as D. rewrite He in D. destruct D as [|D]; auto. exfalso. apply (u_c _ _ (quiet_reach t s R N) c D).
Qed.
Definition ex55 : list ev := Add 0 KGo 5 :: repeat (Adder 0) 4.
Example C55_ex : fst (run x_init ex55) = [OAddCall 0 5; OAdd 0 5; OAddRet 0 5].
Proof. reflexivity. Qed.

(** * C78: Cancel returns *)
(** after Go the context cannot be cancelled: Cancel loops for ever; and WaitAll waits for ever *)
Lemma internal_no_remove : forall fs s c, (forall e, In e fs -> internal e) -> ~ In (ORemove c) (fst (run s fs)).
Proof.
  induction fs as [|e fs IH]; intros s c I; cbn [run]; [cbn; auto|]. destruct (step s e) as [o s1] eqn:E. specialize (IH s1 c (fun x X => I x (or_intror X))).
  destruct (run s1 fs) as [o2 s2]. cbn [fst] in *. rewrite in_app_iff. intros [X|X]; auto.
  pose proof (I e (or_introl eq_refl)) as Ie. pose proof (step_tr _ _ _ _ E) as T.
  destruct e; try contradiction; cbn [step] in E; unfold step_add, step_wait, step_canc, ok in E;
    repeat match type of E with context [match ?x with _ => _ end] => destruct x end; injection E as <- _; cbn in X; intuition discriminate.
Qed.
Lemma never_returns : forall es t s t1 t2 k a c, run x_init es = (t, s) -> t = t1 ++ OSet k :: t2 -> In (OAdd a c) t1 -> ~ In (ORemove c) t ->
  forall fs, (forall e, In e fs -> internal e) -> ~ In (OCancelRet k) (t ++ fst (run s fs)).
Proof.
  intros es t s t1 t2 k a c H E Ha Hn fs I X.
  pose proof (run_reach fs t s (fst (run s fs)) (snd (run s fs)) (start _ _ _ H) (surjective_pairing _)) as R.
  pose proof (reach_cancels _ _ R) as N. apply (n_ret _ _ N) in X. pose proof (n_old _ _ N t1 (t2 ++ fst (run s fs)) k) as P.
  specialize (P ltac:(rewrite E, <- app_assoc; auto) a c Ha). rewrite X in P. apply in_app_iff in P. destruct P as [P|P]; [contradiction|]. apply (internal_no_remove fs s c I P).
Qed.
Theorem C78_cancel_after_go_refuted : exists es t s, run x_init es = (t, s) /\ In (OAddRet 0 5) t /\ In (OCancelCall 1) t /\
  forall fs, (forall e, In e fs -> internal e) -> ~ In (OCancelRet 1) (t ++ fst (run s fs)).
Proof.
  exists (ex55 ++ [Cancel 1; Canc 1]). destruct (run x_init (ex55 ++ [Cancel 1; Canc 1])) as [t s] eqn:E. exists t, s. split; auto.
  assert (Et : t = [OAddCall 0 5; OAdd 0 5; OAddRet 0 5; OCancelCall 1; OSet 1]) by (apply (f_equal fst) in E; vm_compute in E; symmetry; exact E).
  pose proof (never_returns _ t s [OAddCall 0 5; OAdd 0 5; OAddRet 0 5; OCancelCall 1] [] 1 0 5 E Et) as G. 
  rewrite Et in *. split; [cbn; auto 10|]. split; [cbn; auto 10|]. apply G; cbn; intuition discriminate.
Qed.
Lemma run_calls : forall l s k, kp s k = KCall l -> exists n s', run s (repeat (Canc k) n) = (map OCancel l, s') /\ kp s' k = KMap /\ same s s' /\ lock s' = lock s /\ dead s' = dead s.
Proof.
  induction l as [|c l IH]; intros s k K.
  - exists 1, (w_kp s k KMap). cbn. unfold step_canc. rewrite K. cbn. rewrite upd_same. unfold same. auto 10.
  - destruct (IH (w_kp s k (KCall l)) k ltac:(apply upd_same)) as (n & s' & E & P1 & P2 & P3 & P4). exists (S n), s'. cbn [repeat run step]. unfold step_canc. rewrite K, E. auto.
Qed.
Lemma run_app : forall a b s, run s (a ++ b) = (fst (run s a) ++ fst (run (snd (run s a)) b), snd (run (snd (run s a)) b)).
Proof.
  induction a as [|e a IH]; intros b s; cbn [run app fst snd]; [destruct (run s b); auto|]. destruct (step s e) as [o s1]. rewrite IH. destruct (run s1 a) as [o1 s2]. cbn [fst snd].
  rewrite app_assoc. auto.
Qed.
(** everything registered before the context was cancelled and not removed is cancelled, within finitely many steps of the goroutine in Cancel *)
Theorem C54_cancel_reaches_all : forall es t s t1 t2 k a c, run x_init es = (t, s) -> (forall b, ~ adding t b) -> t = t1 ++ OSet k :: t2 -> In (OAdd a c) t1 -> ~ In (ORemove c) t ->
  exists n, In (OCancel c) (fst (run s (repeat (Canc k) n))).
Proof.
  intros es t s t1 t2 k a c H A E Ha Nr. pose proof (start es t s H) as R. pose proof (reach_core _ _ R) as C. pose proof (reach_calls _ _ R) as Q. pose proof (reach_cancels _ _ R) as N.
  assert (Lk : lock s = false).
  { destruct (lock s) eqn:El; auto. exfalso. apply (k_lock _ C) in El. destruct El as (b & g & x & El). apply (A b). exists x.
    split; [apply (q_key _ _ Q); rewrite El; auto|]. rewrite (q_ret _ _ Q). intros [_ X]. congruence. }
  assert (Ht : In (OAdd a c) t) by (rewrite E; apply in_app_iff; auto).
  assert (Rg : In c (reg s)) by (destruct (n_add _ _ N a c Ht); [auto|contradiction]).
  assert (St : In (OSet k) t) by (rewrite E; apply in_elt). destruct (n_set _ _ N k St) as [K0' K1'].
  pose proof (n_old _ _ N t1 t2 k E a c Ha) as Old.
  assert (Pos : forall u, same s u -> mp u = [] -> (cnt u >? 0)%Z = true).
  { intros u (U0 & U1 & U2 & U3) M. rewrite U2, (k_cnt _ C). apply reg_registered in Rg. rewrite U3 in M. rewrite M in Rg. cbn in Rg. destruct (c0 s), (c1 s); cbn; auto. intuition discriminate. }
  assert (Tr : forall u v, same s u -> same u v -> same s v) by (intros u v (A1 & A2 & A3 & A4) (B1 & B2 & B3 & B4); unfold same; rewrite B1, B2, B3, B4; auto).
  assert (Cons : forall u o v, step u (Canc k) = (o, v) -> (exists n, In (OCancel c) (fst (run v (repeat (Canc k) n)))) -> exists n, In (OCancel c) (fst (run u (repeat (Canc k) n)))).
  { intros u o v Eu [n X]. exists (S n). cbn [repeat run]. rewrite Eu. destruct (run v (repeat (Canc k) n)). cbn [fst] in *. apply in_app_iff. auto. }
  assert (G1 : forall u, same s u -> lock u = false -> kp u k = KCollect -> exists n, In (OCancel c) (fst (run u (repeat (Canc k) n)))).
  { intros u U L K. eapply (Cons u); [cbn [step]; unfold step_canc; rewrite K, L; reflexivity|].
    destruct (run_calls _ (w_kp u k (KCall (opt (c0 u) ++ opt (c1 u) ++ mp u))) k (upd_same _ _ _)) as (n & v & X & _). exists n. rewrite X. cbn [fst]. apply in_map.
    change (In c (reg u)). rewrite (reg_same s u U). auto. }
  assert (G2 : forall u, same s u -> lock u = false -> kp u k = KMap -> exists n, In (OCancel c) (fst (run u (repeat (Canc k) n)))).
  { intros u U L K. eapply (Cons u); [cbn [step]; unfold step_canc; rewrite K; reflexivity|]. destruct (mp u) eqn:M.
    - eapply Cons; [cbn [step]; unfold step_canc; fields; rewrite upd_same, (Pos u U M); reflexivity|]. apply G1; fields; auto. apply upd_same.
    - apply G1; fields; auto. apply upd_same. }
  assert (S0 : same s s) by (unfold same; auto).
  destruct (kp s k) eqn:K; try contradiction.
  - apply G2; auto.
  - destruct Old as [Old|Old]; [|contradiction]. eapply Cons.
    + cbn [step]. unfold step_canc. rewrite K. replace (cnt s >? 0)%Z with true; [reflexivity|]. rewrite (k_cnt _ C). destruct (c0 s), (c1 s); cbn; auto. intuition discriminate.
    + apply G1; fields; auto. apply upd_same.
  - apply G1; auto.
  - destruct (run_calls l s k K) as (n & v & X & Kv & Sv & Lv & _). destruct (G2 v (Tr s v S0 Sv) ltac:(congruence) Kv) as [m Y]. exists (n + m). rewrite repeat_app, run_app, X. cbn [fst snd]. apply in_app_iff. auto.
Qed.
Theorem C78_cancel_returns_partial : forall es t s k, run x_init es = (t, s) -> fresh t -> pending t = [] -> (forall a, ~ adding t a) -> In (OCancelCall k) t ->
  exists n, In (OCancelRet k) (t ++ fst (run s (repeat (Canc k) n))).
Proof.
  intros es t s k H F P A I. pose proof (start es t s H) as R. pose proof (reach_core _ _ R) as C. pose proof (reach_calls _ _ R) as Q. pose proof (reach_cancels _ _ R) as N.
  apply (n_call _ _ N) in I. destruct (C53_registry_exact es t s H F) as [_ Em]. apply Em in P. clear Em.
  assert (Lk : lock s = false).
  { destruct (lock s) eqn:El; auto. exfalso. apply (k_lock _ C) in El. destruct El as (a & g & c & El). apply (A a). exists c.
    split; [apply (q_key _ _ Q); rewrite El; auto|]. rewrite (q_ret _ _ Q). intros [_ X]. congruence. }
  assert (Em : forall u, same s u -> mp u = [] /\ (cnt u >? 0)%Z = false).
  { intros u (U0 & U1 & U2 & U3). rewrite U2, U3. unfold empty in P. apply andb_prop in P as [P1 P2]. apply Z.eqb_eq in P1. rewrite P1. destruct (mp s); [auto|discriminate]. }
  assert (G : forall u, same s u -> kp u k = KMap -> In (OCancelRet k) (fst (run u [Canc k; Canc k]))).
  { intros u U K. destruct (Em u U) as [M1 M2]. cbn [run step]. unfold step_canc at 1. rewrite K, M1. unfold step_canc, ok. fields. rewrite upd_same. rewrite M2. cbn. auto. }
  assert (S0 : same s s) by (unfold same; auto).
  assert (G2 : forall l u, same s u -> kp u k = KCall l -> exists n, In (OCancelRet k) (fst (run u (repeat (Canc k) n)))).
  { intros l u U K. destruct (run_calls l u k K) as (n & u' & E & K' & Su & _). exists (n + 2). rewrite repeat_app, run_app, E. cbn [fst snd]. apply in_app_iff. right. apply G; auto.
    destruct U as (A1 & A2 & A3 & A4), Su as (B1 & B2 & B3 & B4). unfold same. rewrite B1, B2, B3, B4. auto. }
  destruct (kp s k) eqn:K.
  - contradiction.
  - destruct (dead s) eqn:D.
    + exists 1. apply in_app_iff. right. cbn. unfold step_canc. rewrite K, D. cbn. auto.
    + assert (E1 : run s [Canc k] = ([OSet k], w_kp (w_dead s true) k KMap)) by (cbn [run step]; unfold step_canc; rewrite K, D; auto).
      exists 3. apply in_app_iff. right. change (repeat (Canc k) 3) with ([Canc k] ++ [Canc k; Canc k]). rewrite run_app, E1. cbn [fst snd]. apply in_app_iff. right.
      apply G; [unfold same; auto|apply upd_same].
  - exists 2. apply in_app_iff. right. apply G; auto.
  - exists 1. apply in_app_iff. right. cbn. unfold step_canc. rewrite K. rewrite (proj2 (Em s S0)). cbn. auto.
  - destruct (G2 (opt (c0 s) ++ opt (c1 s) ++ mp s) (w_kp s k (KCall (opt (c0 s) ++ opt (c1 s) ++ mp s))) S0 ltac:(apply upd_same)) as [n X].
    assert (E1 : run s [Canc k] = ([], w_kp s k (KCall (opt (c0 s) ++ opt (c1 s) ++ mp s)))) by (cbn [run step]; unfold step_canc, ok; rewrite K, Lk; auto).
    exists (1 + n). apply in_app_iff. right. rewrite repeat_app, run_app. change (repeat (Canc k) 1) with [Canc k]. rewrite E1. auto.
  - destruct (G2 l s S0 K) as [n X]. exists n. apply in_app_iff. auto.
  - exists 0. apply in_app_iff. left. apply (n_ret _ _ N). auto.
Qed.
(** the hypotheses of C78 hold just before Cancel returns in the example *)
Example C78_ex : exists t s, run x_init (add 0 7 ++ add 1 8 ++ add 2 9 ++ [Cancel 3] ++ repeat (Canc 3) 4 ++ [Remove 7; Canc 3; Remove 8; Canc 3; Remove 9]) = (t, s) /\
  fresh t /\ pending t = [] /\ In (OCancelCall 3) t.
Proof. eexists _, _. split; [vm_compute; reflexivity|]. split; [repeat constructor; cbn; intuition discriminate|]. split; [reflexivity|cbn; auto 20]. Qed.

Print Assumptions C53_registry_exact.
Print Assumptions C53_waitall_waits_for_all.
Print Assumptions C53_waitall_returns_partial.
Print Assumptions C53_two_waiters_refuted.
Print Assumptions C53_added_twice_refuted.
Print Assumptions C54_cancelled_or_removed_partial.
Print Assumptions C54_cancel_reaches_all.
Print Assumptions C54_overlapping_add_refuted.
Print Assumptions C54_second_caller_refuted.
Print Assumptions C55_go_never_starts_refuted.
Print Assumptions C55_child_registered_partial.
Print Assumptions C77_cancel_waits.
Print Assumptions C78_cancel_after_go_refuted.
Print Assumptions C78_cancel_returns_partial.
