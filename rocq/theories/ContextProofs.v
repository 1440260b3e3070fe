(** Invariants of the context registry. *)
From Coq Require Import List Bool Arith ZArith Lia Permutation.
Import ListNotations.
From Verif Require Import ContextModel ContextSpec.

Lemma upd_same {A} (f : nat -> A) k v : upd f k v k = v.
Proof. unfold upd. now rewrite Nat.eqb_refl. Qed.
Lemma upd_other {A} (f : nat -> A) k v i : i <> k -> upd f k v i = f i.
Proof. unfold upd. intros H. apply Nat.eqb_neq in H. now rewrite H. Qed.
Ltac fields := cbn [dead c0 c1 cnt mp lock wq ap wp kp w_dead w_lock w_reg w_wq w_ap w_wp w_kp fst snd] in *.

Inductive reach : list obs -> st -> Prop :=
| reach0 : reach [] x_init
| reachS : forall t s e o s', reach t s -> step s e = (o, s') -> reach (t ++ o) s'.
Lemma run_reach : forall es t s o s', reach t s -> run s es = (o, s') -> reach (t ++ o) s'.
Proof.
  induction es as [|e es IH]; cbn [run]; intros t s o s' R H.
  - injection H as <- <-. rewrite app_nil_r. auto.
  - destruct (step s e) as [o1 s1] eqn:E. destruct (run s1 es) as [o2 s2] eqn:E2. injection H as <- <-.
    rewrite app_assoc. eapply IH; eauto. eapply reachS; eauto.
Qed.

(** * The classification of steps *)
Definition reg (s : st) : list nat := opt (c0 s) ++ opt (c1 s) ++ mp s.
Definition same (s s' : st) : Prop := c0 s' = c0 s /\ c1 s' = c1 s /\ cnt s' = cnt s /\ mp s' = mp s.
Inductive tr (s : st) : list obs -> st -> Prop :=
| T_stay : tr s [] s
| T_call : forall a g c p, ap s a = A0 -> (p = AState g c \/ p = ALock g c) -> tr s [OAddCall a c] (w_ap s a p)
| T_state : forall a g c, ap s a = AState g c -> tr s [] (w_ap s a (if dead s then ACancel g c else ALock g c))
| T_lock : forall a g c, ap s a = ALock g c -> lock s = false -> dead s = false -> tr s [] (w_ap (w_lock s true) a (AReg g c))
| T_rej : forall a g c, ap s a = ALock g c -> lock s = false -> dead s = true -> tr s [] (w_ap s a (ACancel g c))
| T_reg : forall a g c, ap s a = AReg g c -> tr s [OAdd a c] (w_ap (w_lock (register s c) false) a (ARet g c))
| T_acanc : forall a g c, ap s a = ACancel g c -> tr s [OCancel c] (w_ap s a (ARet g c))
| T_ret : forall a g c, ap s a = ARet g c -> tr s [OAddRet a c] (w_ap s a AEnd)
| T_rem : forall c, lock s = false -> empty (unregister s c) = false -> tr s [ORemove c] (unregister s c)
| T_rems : forall c, lock s = false -> empty (unregister s c) = true -> tr s [ORemove c] (signal (unregister s c))
| T_wcall : forall k, wp s k = W0 -> tr s [OWaitCall k] (w_wp s k WTest)
| T_wret : forall k, wp s k = WTest \/ wp s k = WAgain -> lock s = false -> empty s = true -> tr s [OWaitRet k] (w_wp s k WEnd)
| T_wwait : forall k, wp s k = WTest \/ wp s k = WAgain -> lock s = false -> empty s = false -> tr s [] (w_wp (w_wq s (wq s ++ [k])) k WWait)
| T_kcall : forall k, kp s k = K0 -> tr s [OCancelCall k] (w_kp s k KCas)
| T_klate : forall k, kp s k = KCas -> dead s = true -> tr s [OCancelRet k] (w_kp s k KEnd)
| T_kset : forall k, kp s k = KCas -> dead s = false -> tr s [OSet k] (w_kp (w_dead s true) k KMap)
| T_kmap : forall k, kp s k = KMap -> tr s [] (w_kp s k (match mp s with [] => KCnt | _ => KCollect end))
| T_kcnt : forall k, kp s k = KCnt -> (cnt s > 0)%Z -> tr s [] (w_kp s k KCollect)
| T_kret : forall k, kp s k = KCnt -> (cnt s <= 0)%Z -> tr s [OCancelRet k] (w_kp s k KEnd)
| T_kcoll : forall k, kp s k = KCollect -> lock s = false -> tr s [] (w_kp s k (KCall (reg s)))
| T_kagain : forall k, kp s k = KCall [] -> tr s [] (w_kp s k KMap)
| T_kcancel : forall k c l, kp s k = KCall (c :: l) -> tr s [OCancel c] (w_kp s k (KCall l)).
Lemma step_tr : forall s e o s', step s e = (o, s') -> tr s o s'.
Proof.
  intros s e o s' H. destruct e as [a g c|c|k|k|a|k|k]; cbn [step] in H; unfold ok in H.
  - destruct (ap s a) eqn:E; injection H as <- <-; try apply T_stay. apply (T_call s a g c); auto. destruct g; auto.
  - destruct (lock s) eqn:L; [injection H as <- <-; apply T_stay|]. cbn zeta in H. destruct (empty (unregister s c)) eqn:E; injection H as <- <-; [apply T_rems|apply T_rem]; auto.
  - destruct (wp s k) eqn:E; injection H as <- <-; try apply T_stay. apply T_wcall; auto.
  - destruct (kp s k) eqn:E; injection H as <- <-; try apply T_stay. apply T_kcall; auto.
  - unfold step_add, ok in H. destruct (ap s a) eqn:E.
    + injection H as <- <-; apply T_stay.
    + injection H as <- <-; apply (T_state s a); auto.
    + destruct (lock s) eqn:L; [injection H as <- <-; apply T_stay|]. destruct (dead s) eqn:D; injection H as <- <-; [apply (T_rej s a)|apply (T_lock s a)]; auto.
    + injection H as <- <-; apply (T_reg s a); auto.
    + injection H as <- <-; apply (T_acanc s a); auto.
    + assert (Q : ([OAddRet a c], w_ap s a AEnd) = (o, s')) by (rewrite <- H; destruct g; auto). injection Q as <- <-; apply (T_ret s a g); auto.
    + injection H as <- <-; apply T_stay.
  - unfold step_wait, ok in H. destruct (wp s k) eqn:E; try (injection H as <- <-; apply T_stay).
    + destruct (lock s) eqn:L; [injection H as <- <-; apply T_stay|]. destruct (empty s) eqn:D; injection H as <- <-; [apply T_wret|apply T_wwait]; auto.
    + destruct (lock s) eqn:L; [injection H as <- <-; apply T_stay|]. destruct (empty s) eqn:D; injection H as <- <-; [apply T_wret|apply T_wwait]; auto.
  - unfold step_canc, ok in H. destruct (kp s k) eqn:E.
    + injection H as <- <-; apply T_stay.
    + destruct (dead s) eqn:D; injection H as <- <-; [apply T_klate|apply T_kset]; auto.
    + injection H as <- <-; apply T_kmap; auto.
    + destruct (Z.gtb_spec (cnt s) 0); injection H as <- <-; [apply T_kcnt|apply T_kret]; auto; lia.
    + destruct (lock s) eqn:L; injection H as <- <-; [apply T_stay|apply T_kcoll; auto].
    + destruct l; injection H as <- <-; [apply T_kagain|apply T_kcancel]; auto.
    + injection H as <- <-; apply T_stay.
Qed.

(** * The registry *)
Definition nsome (o : option nat) : Z := match o with Some _ => 1 | None => 0 end.
Lemma signal_reg : forall s, same s (signal s) /\ dead (signal s) = dead s /\ lock (signal s) = lock s /\ ap (signal s) = ap s /\ kp (signal s) = kp s.
Proof. intros s. unfold signal, same. destruct (wq s); fields; auto 10. Qed.
Lemma reg_same : forall s s', same s s' -> reg s' = reg s.
Proof. intros s s' (A & B & _ & C). unfold reg. rewrite A, B, C. auto. Qed.
Record core (s : st) : Prop := {
  k_cnt : cnt s = (nsome (c0 s) + nsome (c1 s))%Z;
  k_mp : NoDup (mp s);
  k_lock : lock s = true <-> exists a g c, ap s a = AReg g c;
  k_one : forall a a' g g' c c', ap s a = AReg g c -> ap s a' = AReg g' c' -> a = a' }.
Lemma core_init : core x_init.
Proof. constructor; cbn; auto; [constructor|split; [discriminate|intros (?&?&?&?); discriminate]|discriminate]. Qed.
Lemma register_cnt : forall s c, cnt s = (nsome (c0 s) + nsome (c1 s))%Z -> NoDup (mp s) ->
  cnt (register s c) = (nsome (c0 (register s c)) + nsome (c1 (register s c)))%Z /\ NoDup (mp (register s c)).
Proof.
  intros s c H N. unfold register. destruct (c0 s) eqn:E0; fields; [|split; auto; cbn [nsome] in *; lia]. destruct (c1 s) eqn:E1; fields; [|split; auto; cbn [nsome] in *; lia].
  split; auto. destruct (in_dec Nat.eq_dec c (mp s)); auto. apply (Permutation_NoDup (l := c :: mp s)); [apply Permutation_cons_append|constructor; auto].
Qed.
Lemma in_remove_iff : forall l x c, In x (remove Nat.eq_dec c l) <-> In x l /\ x <> c.
Proof. intros l x c. split; [apply in_remove|]. intros [H N]. apply in_in_remove; auto. Qed.
Lemma NoDup_rem : forall c l, NoDup l -> NoDup (remove Nat.eq_dec c l).
Proof.
  induction l as [|x l IH]; cbn; auto. intros N. inversion N; subst. destruct (Nat.eq_dec c x); auto. constructor; auto. rewrite in_remove_iff. tauto.
Qed.
Lemma unregister_cnt : forall s c, cnt s = (nsome (c0 s) + nsome (c1 s))%Z -> NoDup (mp s) ->
  cnt (unregister s c) = (nsome (c0 (unregister s c)) + nsome (c1 (unregister s c)))%Z /\ NoDup (mp (unregister s c)).
Proof.
  intros s c H N. unfold unregister. destruct (is_some (c0 s) c) eqn:E0; fields.
  - split; auto. destruct (c0 s); [cbn [nsome] in *; lia|discriminate].
  - destruct (is_some (c1 s) c) eqn:E1; fields.
    + split; auto. destruct (c1 s); [cbn [nsome] in *; lia|discriminate].
    + split; auto. apply NoDup_rem; auto.
Qed.
Lemma register_frame : forall s c, dead (register s c) = dead s /\ lock (register s c) = lock s /\ wq (register s c) = wq s /\ ap (register s c) = ap s /\ wp (register s c) = wp s /\ kp (register s c) = kp s.
Proof. intros s c. unfold register. destruct (c0 s), (c1 s); fields; auto 10. Qed.
Lemma unregister_frame : forall s c, dead (unregister s c) = dead s /\ lock (unregister s c) = lock s /\ wq (unregister s c) = wq s /\ ap (unregister s c) = ap s /\ wp (unregister s c) = wp s /\ kp (unregister s c) = kp s.
Proof. intros s c. unfold unregister. destruct (is_some (c0 s) c), (is_some (c1 s) c); fields; auto 10. Qed.

Lemma core_ap : forall s s' a p, core s -> same s s' -> lock s' = lock s -> ap s' = upd (ap s) a p ->
  (forall g c, ap s a <> AReg g c) -> (forall g c, p <> AReg g c) -> core s'.
Proof.
  intros s s' a p C (E0 & E1 & En & Em) El Ea N N'. constructor.
  - rewrite E0, E1, En. apply C.
  - rewrite Em. apply C.
  - rewrite El, (k_lock _ C), Ea. split; intros (b & g & c & H); exists b, g, c.
    + rewrite upd_other; auto. intros ->. apply (N g c); auto.
    + destruct (Nat.eq_dec b a) as [->|X]; [rewrite upd_same in H; apply N' in H; contradiction|rewrite upd_other in H; auto].
  - rewrite Ea. intros b b' g g' c c' H H'.
    destruct (Nat.eq_dec b a) as [->|X]; [rewrite upd_same in H; apply N' in H; contradiction|rewrite upd_other in H; auto].
    destruct (Nat.eq_dec b' a) as [->|X']; [rewrite upd_same in H'; apply N' in H'; contradiction|rewrite upd_other in H'; auto].
    eapply (k_one _ C); eauto.
Qed.
Lemma core_same : forall s s', core s -> same s s' -> lock s' = lock s -> ap s' = ap s -> core s'.
Proof.
  intros s s' C (E0 & E1 & En & Em) El Ea. constructor; rewrite ?E0, ?E1, ?En, ?Em, ?El, ?Ea; apply C.
Qed.
Lemma core_step : forall s o s', core s -> tr s o s' -> core s'.
Proof.
  intros s o s' C T. assert (Sm : forall s, same s s) by (unfold same; auto).
  destruct T; try (apply (core_same s); fields; auto; unfold same; fields; auto; fail); auto.
  - apply (core_ap s _ a p); fields; auto; try (unfold same; fields; auto; fail); intros; [congruence|destruct H0; subst; discriminate].
  - apply (core_ap s _ a (if dead s then ACancel g c else ALock g c)); fields; auto; try (unfold same; fields; auto; fail); intros; [congruence|destruct (dead s); discriminate].
  - constructor; fields; try apply C.
    + split; auto. intros _. exists a, g, c. apply upd_same.
    + assert (N : forall b g' c', ap s b <> AReg g' c') by (intros b g' c' X; assert (lock s = true) by (apply (k_lock _ C); eauto); congruence).
      intros b b' g1 g2 x1 x2 X1 X2. destruct (Nat.eq_dec b a) as [->|Y]; [|rewrite upd_other in X1 by auto; apply N in X1; contradiction].
      destruct (Nat.eq_dec b' a) as [->|Y']; auto. rewrite upd_other in X2 by auto; apply N in X2; contradiction.
  - apply (core_ap s _ a (ACancel g c)); fields; auto; try (unfold same; fields; auto; fail); intros; congruence.
  - destruct (register_cnt s c (k_cnt _ C) (k_mp _ C)) as [R1 R2]. destruct (register_frame s c) as (F1 & F2 & F3 & F4 & F5 & F6).
    assert (N : forall b g' c', upd (ap s) a (ARet g c) b <> AReg g' c').
    { intros b g' c' X. destruct (Nat.eq_dec b a) as [->|Y]; [rewrite upd_same in X; discriminate|rewrite upd_other in X by auto].
      apply Y. eapply (k_one _ C); eauto. }
    constructor; fields; auto; rewrite ?F4.
    + split; [discriminate|]. intros (b & g' & c' & X). apply N in X. contradiction.
    + intros b b' g1 g2 x1 x2 X1. apply N in X1. contradiction.
  - apply (core_ap s _ a (ARet g c)); fields; auto; try (unfold same; fields; auto; fail); intros; congruence.
  - apply (core_ap s _ a AEnd); fields; auto; try (unfold same; fields; auto; fail); intros; congruence.
  - destruct (unregister_cnt s c (k_cnt _ C) (k_mp _ C)) as [R1 R2]. destruct (unregister_frame s c) as (F1 & F2 & F3 & F4 & F5 & F6).
    constructor; auto; rewrite ?F2, ?F4; apply C.
  - destruct (unregister_cnt s c (k_cnt _ C) (k_mp _ C)) as [R1 R2]. destruct (unregister_frame s c) as (F1 & F2 & F3 & F4 & F5 & F6).
    destruct (signal_reg (unregister s c)) as (S1 & S2 & S3 & S4 & S5). apply (core_same (unregister s c)); auto. constructor; auto; rewrite ?F2, ?F4; apply C.
Qed.
Lemma reach_core : forall t s, reach t s -> core s.
Proof. induction 1; [apply core_init|eapply core_step; eauto using step_tr]. Qed.
Lemma empty_reg : forall s, core s -> empty s = true <-> reg s = [].
Proof.
  intros s C. unfold empty, reg. rewrite andb_true_iff, Z.eqb_eq, (k_cnt _ C). destruct (c0 s), (c1 s), (mp s); cbn [nsome opt app]; (split; [intros [A B]; try lia; try discriminate; auto|intros A; try discriminate; split; auto]).
Qed.
Lemma in_register : forall s c x, In x (reg (register s c)) <-> x = c \/ In x (reg s).
Proof.
  intros s c x. unfold register, reg. destruct (c0 s), (c1 s); fields; cbn [opt app In]; try (intuition; fail). 
  destruct (in_dec Nat.eq_dec c (mp s)); [|rewrite in_app_iff; cbn [In]]; intuition; subst; auto.
Qed.
Lemma in_unregister : forall s c x, x <> c -> In x (reg (unregister s c)) <-> In x (reg s).
Proof.
  intros s c x N. unfold unregister, reg. destruct (is_some (c0 s) c) eqn:E0; [|destruct (is_some (c1 s) c) eqn:E1]; fields; rewrite !in_app_iff; cbn [opt In].
  - destruct (c0 s); [|discriminate]. cbn in *. apply Nat.eqb_eq in E0. subst. intuition congruence.
  - destruct (c1 s); [|discriminate]. cbn in *. apply Nat.eqb_eq in E1. subst. intuition congruence.
  - rewrite in_remove_iff. tauto.
Qed.
Lemma unregister_in : forall s c x, In x (reg (unregister s c)) -> In x (reg s).
Proof.
  intros s c x. unfold unregister, reg. destruct (is_some (c0 s) c); [|destruct (is_some (c1 s) c)]; fields; rewrite !in_app_iff; cbn [opt In]; try tauto.
  rewrite in_remove_iff. tauto.
Qed.
Lemma remove_nin : forall c l, ~ In c l -> remove Nat.eq_dec c l = l.
Proof. intros. apply notin_remove. auto. Qed.
Lemma unregister_reg : forall s c, NoDup (reg s) -> Permutation (reg (unregister s c)) (remove Nat.eq_dec c (reg s)).
Proof.
  intros s c N. unfold unregister, reg in *. destruct (is_some (c0 s) c) eqn:E0; [|destruct (is_some (c1 s) c) eqn:E1]; fields.
  - destruct (c0 s) as [x|]; [|discriminate]. cbn in E0. apply Nat.eqb_eq in E0. subst. cbn [opt app] in *. inversion N; subst. cbn [remove]. destruct (Nat.eq_dec c c); [|congruence].
    rewrite remove_nin; auto.
  - destruct (c1 s) as [x|]; [|discriminate]. cbn in E1. apply Nat.eqb_eq in E1. subst. cbn [opt app] in *.
    assert (~ In c (opt (c0 s))) by (intros X; destruct (c0 s) as [y|]; cbn in *; [destruct X as [->|[]]; rewrite Nat.eqb_refl in E0; discriminate|auto]).
    rewrite remove_app, (remove_nin c (opt (c0 s))) by auto. cbn [remove]. destruct (Nat.eq_dec c c); [|congruence].
    rewrite remove_nin; auto. apply NoDup_remove_2 in N. intros X. apply N. apply in_app_iff. auto.
  - rewrite !remove_app. rewrite (remove_nin c (opt (c0 s))), (remove_nin c (opt (c1 s))); auto.
    + intros X. destruct (c1 s) as [y|]; cbn in *; [destruct X as [->|[]]; rewrite Nat.eqb_refl in E1; discriminate|auto].
    + intros X. destruct (c0 s) as [y|]; cbn in *; [destruct X as [->|[]]; rewrite Nat.eqb_refl in E0; discriminate|auto].
Qed.
Lemma register_reg : forall s c, ~ In c (reg s) -> Permutation (reg (register s c)) (reg s ++ [c]).
Proof.
  intros s c N. unfold register, reg in *. destruct (c0 s), (c1 s); fields; cbn [opt app] in *.
  - destruct (in_dec Nat.eq_dec c (mp s)); [exfalso; apply N; cbn; auto|]. reflexivity.
  - constructor. apply Permutation_cons_append.
  - apply (Permutation_cons_append (n :: mp s)).
  - apply Permutation_cons_append.
Qed.

(** * Traces *)
Lemma pending_app : forall t1 t2 l, pending_from l (t1 ++ t2) = pending_from (pending_from l t1) t2.
Proof. induction t1 as [|o t1 IH]; intros; cbn; auto. destruct o; auto. Qed.
Lemma pending_snoc : forall t o, pending (t ++ [o]) = match o with OAdd _ c => pending t ++ [c] | ORemove c => remove Nat.eq_dec c (pending t) | _ => pending t end.
Proof. intros. unfold pending. rewrite pending_app. destruct o; reflexivity. Qed.
Lemma given_app : forall t1 t2, given (t1 ++ t2) = given t1 ++ given t2.
Proof. intros. apply flat_map_app. Qed.
Lemma NoDup_app_l {A} (a b : list A) : NoDup (a ++ b) -> NoDup a.
Proof. induction a; cbn; intros H; [constructor|]. inversion H; subst. constructor; auto. intros X. apply H2. apply in_app_iff. auto. Qed.
Definition key (p : apc) : option nat := match p with AState _ c | ALock _ c | AReg _ c | ACancel _ c | ARet _ c => Some c | A0 | AEnd => None end.
(** how far a call that registers something is *)
Record calls (t : list obs) (s : st) : Prop := {
  q_0 : forall a c, ap s a = A0 -> ~ In (OAddCall a c) t;
  q_key : forall a c, key (ap s a) = Some c -> In (OAddCall a c) t;
  q_fun : forall a c c', In (OAddCall a c) t -> In (OAddCall a c') t -> c = c';
  q_add : forall a c, In (OAdd a c) t -> In (OAddCall a c) t /\ match ap s a with ARet _ _ | AEnd => True | _ => False end;
  q_ret : forall a c, In (OAddRet a c) t <-> In (OAddCall a c) t /\ ap s a = AEnd;
  q_done : forall a c, In (OAddCall a c) t -> match ap s a with ARet _ _ | AEnd => In (OAdd a c) t \/ In (OCancel c) t | _ => True end }.
Lemma calls_frame : forall t s o s', calls t s -> ap s' = ap s ->
  (forall a c, ~ In (OAddCall a c) o) -> (forall a c, ~ In (OAdd a c) o) -> (forall a c, ~ In (OAddRet a c) o) -> calls (t ++ o) s'.
Proof.
  intros t s o s' Q E N1 N2 N3.
  assert (I1 : forall a c, In (OAddCall a c) (t ++ o) <-> In (OAddCall a c) t) by (intros a c; rewrite in_app_iff; specialize (N1 a c); tauto).
  assert (I2 : forall a c, In (OAdd a c) (t ++ o) <-> In (OAdd a c) t) by (intros a c; rewrite in_app_iff; specialize (N2 a c); tauto).
  assert (I3 : forall a c, In (OAddRet a c) (t ++ o) <-> In (OAddRet a c) t) by (intros a c; rewrite in_app_iff; specialize (N3 a c); tauto).
  constructor; rewrite ?E.
  - intros a c. rewrite I1. apply (q_0 _ _ Q).
  - intros a c. rewrite I1. apply (q_key _ _ Q).
  - intros a c c'. rewrite !I1. apply (q_fun _ _ Q).
  - intros a c. rewrite I1, I2. apply (q_add _ _ Q).
  - intros a c. rewrite I1, I3. apply (q_ret _ _ Q).
  - intros a c. rewrite I1. intros H. pose proof (q_done _ _ Q a c H) as D. destruct (ap s a); auto; rewrite I2, in_app_iff; tauto.
Qed.
(** a step of goroutine a *)
Lemma calls_ap : forall t s o s' a p, calls t s -> ap s' = upd (ap s) a p -> ap s a <> A0 -> ap s a <> AEnd -> p <> A0 ->
  (match p with AEnd => False | _ => key p = key (ap s a) end) ->
  (forall b c, ~ In (OAddCall b c) o) -> (forall b c, In (OAdd b c) o -> b = a /\ key (ap s a) = Some c) ->
  (forall b c, ~ In (OAddRet b c) o) ->
  (match ap s a with ARet _ _ => False | _ => True end) ->
  (match p with ARet _ c => In (OAdd a c) o \/ In (OCancel c) o | _ => forall b c, ~ In (OAdd b c) o end) -> calls (t ++ o) s'.
Proof.
  intros t s o s' a p Q E P0 P1 P2 K N1 N2 N3 L D.
  assert (I1 : forall a c, In (OAddCall a c) (t ++ o) <-> In (OAddCall a c) t) by (intros b c; rewrite in_app_iff; specialize (N1 b c); tauto).
  assert (I3 : forall a c, In (OAddRet a c) (t ++ o) <-> In (OAddRet a c) t) by (intros b c; rewrite in_app_iff; specialize (N3 b c); tauto).
  constructor; rewrite ?E.
  - intros b c. rewrite I1. destruct (Nat.eq_dec b a) as [->|X]; [rewrite upd_same; congruence|rewrite upd_other by auto; apply (q_0 _ _ Q)].
  - intros b c. rewrite I1. destruct (Nat.eq_dec b a) as [->|X]; [rewrite upd_same|rewrite upd_other by auto; apply (q_key _ _ Q)].
    intros H. apply (q_key _ _ Q). rewrite <- H. destruct p; try contradiction; congruence.
  - intros b c c'. rewrite !I1. apply (q_fun _ _ Q).
  - intros b c. rewrite I1, in_app_iff. intros [H|H].
    + destruct (q_add _ _ Q b c H) as [H1 H2]. split; auto. destruct (Nat.eq_dec b a) as [->|X]; [|rewrite upd_other by auto; auto]. exfalso. destruct (ap s a); auto.
    + destruct (N2 b c H) as [-> H1]. split; [apply (q_key _ _ Q); auto|]. rewrite upd_same. destruct p; auto; try contradiction; apply (D a c H).
  - intros b c. rewrite I1, I3, (q_ret _ _ Q). destruct (Nat.eq_dec b a) as [->|X]; [rewrite upd_same|rewrite upd_other by auto; tauto].
    split; intros [H1 H2]; [congruence|]. subst. contradiction.
  - intros b c. rewrite I1. intros H. pose proof (q_done _ _ Q b c H) as G. destruct (Nat.eq_dec b a) as [->|X].
    + rewrite upd_same. assert (W : forall g c0, p = ARet g c0 -> c0 = c) by (intros g x ->; apply (q_fun _ _ Q a); auto; apply (q_key _ _ Q); rewrite <- K; auto).
      destruct p; auto; [|contradiction]. specialize (W _ _ eq_refl). subst. rewrite !in_app_iff. tauto.
    + rewrite upd_other by auto. destruct (ap s b); auto; rewrite !in_app_iff; tauto.
Qed.
Lemma calls_step : forall t s o s', core s -> calls t s -> tr s o s' -> calls (t ++ o) s'.
Proof.
  intros t s o s' C Q T. destruct T;
   try (apply (calls_frame t s); fields; auto; cbn [In]; intros; intuition discriminate).
  - (* call *)
    assert (Pk : key p = Some c) by (destruct H0; subst; auto).
    constructor; fields.
    + intros b x. rewrite in_app_iff. cbn [In]. destruct (Nat.eq_dec b a) as [->|X]; [rewrite upd_same; destruct H0; subst; discriminate|rewrite upd_other by auto].
      intros E [Y|[Y|[]]]; [apply (q_0 _ _ Q b x); auto|congruence].
    + intros b x. rewrite in_app_iff. cbn [In]. destruct (Nat.eq_dec b a) as [->|X]; [rewrite upd_same|rewrite upd_other by auto].
      * intros E. right. left. congruence.
      * intros E. left. apply (q_key _ _ Q); auto.
    + intros b x x'. rewrite !in_app_iff. cbn [In]. intros [Y|[Y|[]]] [Z|[Z|[]]]; try (eapply (q_fun _ _ Q); eauto; fail); try congruence.
      * injection Z as -> ->. exfalso. apply (q_0 _ _ Q b x); auto.
      * injection Y as -> ->. exfalso. apply (q_0 _ _ Q b x'); auto.
    + intros b x. rewrite !in_app_iff. cbn [In]. intros [Y|[Y|[]]]; [|discriminate]. destruct (q_add _ _ Q b x Y) as [Z1 Z2]. split; auto.
      destruct (Nat.eq_dec b a) as [->|X]; [rewrite H in Z2; contradiction|rewrite upd_other by auto; auto].
    + intros b x. rewrite !in_app_iff. cbn [In]. destruct (Nat.eq_dec b a) as [->|X]; [rewrite upd_same|rewrite upd_other by auto].
      * split; [|intros [_ ->]; destruct H0; discriminate]. intros [Y|[Y|[]]]; [|discriminate]. apply (q_ret _ _ Q) in Y. destruct Y. congruence.
      * rewrite (q_ret _ _ Q). intuition; try discriminate; try congruence.
    + intros b x. rewrite !in_app_iff. cbn [In]. destruct (Nat.eq_dec b a) as [->|X]; [rewrite upd_same; destruct H0; subst; auto|rewrite upd_other by auto].
      intros [Y|[Y|[]]]; [|congruence]. pose proof (q_done _ _ Q b x Y) as G. destruct (ap s b); auto; rewrite !in_app_iff; tauto.
  - apply (calls_ap t s [] _ a (if dead s then ACancel g c else ALock g c)); fields; auto; rewrite ?H; try congruence; cbn [In]; try (intros; tauto); auto; destruct (dead s); cbn; auto; discriminate.
  - apply (calls_ap t s [] _ a (AReg g c)); fields; auto; rewrite ?H; try congruence; cbn [In]; try (intros; tauto); auto.
  - apply (calls_ap t s [] _ a (ACancel g c)); fields; auto; rewrite ?H; try congruence; cbn [In]; try (intros; tauto); auto.
  - destruct (register_frame s c) as (F1 & F2 & F3 & F4 & F5 & F6).
    apply (calls_ap t s [OAdd a c] _ a (ARet g c)); fields; auto; rewrite ?H, ?F4; try congruence; cbn [In key]; auto; intros; intuition; try discriminate; congruence.
  - apply (calls_ap t s [OCancel c] _ a (ARet g c)); fields; auto; rewrite ?H; try congruence; cbn [In key]; auto; intros; intuition; try discriminate; congruence.
  - (* return *)
    constructor; fields.
    + intros b x. rewrite in_app_iff. cbn [In]. destruct (Nat.eq_dec b a) as [->|X]; [rewrite upd_same; discriminate|rewrite upd_other by auto].
      intros E [Y|[Y|[]]]; [apply (q_0 _ _ Q b x); auto|discriminate].
    + intros b x. rewrite in_app_iff. cbn [In]. destruct (Nat.eq_dec b a) as [->|X]; [rewrite upd_same; discriminate|rewrite upd_other by auto].
      intros E. left. apply (q_key _ _ Q); auto.
    + intros b x x'. rewrite !in_app_iff. cbn [In]. intros [Y|[Y|[]]] [Z|[Z|[]]]; try discriminate. eapply (q_fun _ _ Q); eauto.
    + intros b x. rewrite !in_app_iff. cbn [In]. intros [Y|[Y|[]]]; [|discriminate]. destruct (q_add _ _ Q b x Y) as [Z1 Z2]. split; auto.
      destruct (Nat.eq_dec b a) as [->|X]; [rewrite upd_same; auto|rewrite upd_other by auto; auto].
    + intros b x. rewrite !in_app_iff. cbn [In]. destruct (Nat.eq_dec b a) as [->|X]; [rewrite upd_same|rewrite upd_other by auto].
      * split.
        { intros [Y|[Y|[]]]; [apply (q_ret _ _ Q) in Y; tauto|]. injection Y as <-. split; auto. left. apply (q_key _ _ Q). rewrite H. auto. }
        intros [[Y|[Y|[]]] _]; [|discriminate]. right. left. f_equal. eapply (q_fun _ _ Q); eauto. apply (q_key _ _ Q). rewrite H. auto.
      * rewrite (q_ret _ _ Q). intuition; try discriminate; congruence.
    + intros b x. rewrite !in_app_iff. cbn [In]. intros [Y|[Y|[]]]; [|discriminate]. pose proof (q_done _ _ Q b x Y) as G.
      destruct (Nat.eq_dec b a) as [->|X]; [rewrite upd_same; rewrite H in G; rewrite !in_app_iff; tauto|rewrite upd_other by auto]. destruct (ap s b); auto; rewrite !in_app_iff; tauto.
  - destruct (unregister_frame s c) as (F1 & F2 & F3 & F4 & F5 & F6). apply (calls_frame t s); auto; cbn [In]; intros; intuition discriminate.
  - destruct (unregister_frame s c) as (F1 & F2 & F3 & F4 & F5 & F6). destruct (signal_reg (unregister s c)) as (S1 & S2 & S3 & S4 & S5).
    apply (calls_frame t s); [auto|congruence| | |]; cbn [In]; intros; intuition discriminate.
Qed.
Lemma calls_init : calls [] x_init.
Proof. constructor; cbn; intros; try tauto; try discriminate. Qed.
Lemma reach_calls : forall t s, reach t s -> calls t s.
Proof. induction 1; [apply calls_init|eapply calls_step; eauto using step_tr, reach_core]. Qed.

Lemma given_in : forall t c, In c (given t) <-> exists a, In (OAddCall a c) t.
Proof.
  intros t c. unfold given. rewrite in_flat_map. split.
  - intros (o & H & X). destruct o; cbn in X; try contradiction. destruct X as [->|[]]. eauto.
  - intros (a & H). exists (OAddCall a c). cbn. auto.
Qed.
Lemma given_inj : forall t a a' c, fresh t -> In (OAddCall a c) t -> In (OAddCall a' c) t -> a = a'.
Proof.
  induction t as [|o t IH]; cbn [In]; [tauto|]. intros a a' c F H H'. unfold fresh in F. cbn [given flat_map] in F. fold (given t) in F.
  assert (Ft : fresh t) by (unfold fresh; destruct o; cbn in F; auto; inversion F; auto).
  destruct H as [->|H]; destruct H' as [H'|H'].
  - congruence.
  - exfalso. cbn in F. inversion F as [|? ? Nin _]; subst. apply Nin. apply given_in. eauto.
  - exfalso. subst. cbn in F. inversion F as [|? ? Nin _]; subst. apply Nin. apply given_in. eauto.
  - eauto.
Qed.
Lemma pending_sub : forall t s, reach t s -> forall c, In c (pending t) -> exists a, In (OAdd a c) t.
Proof.
  intros t s _. induction t as [|o t IH] using rev_ind; [cbn; tauto|]. intros c. rewrite pending_snoc.
  assert (K : In c (pending t) -> exists a, In (OAdd a c) (t ++ [o])) by (intros H; destruct (IH c H) as [a Ha]; exists a; apply in_app_iff; auto).
  destruct o; auto.
  - rewrite in_app_iff. cbn. intros [H|[->|[]]]; auto. exists a. apply in_app_iff. cbn. auto.
  - rewrite in_remove_iff. intros [H _]. auto.
Qed.
Lemma fresh_l : forall t o, fresh (t ++ o) -> fresh t.
Proof. unfold fresh. intros t o. rewrite given_app. apply NoDup_app_l. Qed.
Lemma exact_step : forall t s o s', reach t s -> fresh t -> NoDup (pending t) -> Permutation (reg s) (pending t) -> tr s o s' ->
  NoDup (pending (t ++ o)) /\ Permutation (reg s') (pending (t ++ o)).
Proof.
  intros t s o s' R F N P T. pose proof (reach_core t s R) as C. pose proof (reach_calls t s R) as Q.
  destruct T; rewrite ?app_nil_r, ?pending_snoc; auto.
  - assert (Nc : ~ In c (pending t)).
    { intros X. destruct (pending_sub t s R c X) as [b Hb]. destruct (q_add _ _ Q b c Hb) as [Z1 Z2].
      assert (b = a) by (apply (given_inj t b a c); auto; apply (q_key _ _ Q); rewrite H; auto). subst. rewrite H in Z2. contradiction. }
    split.
    + apply (Permutation_NoDup (l := c :: pending t)); [apply Permutation_cons_append|constructor; auto].
    + change (reg (w_ap (w_lock (register s c) false) a (ARet g c))) with (reg (register s c)).
      rewrite register_reg; [apply Permutation_app_tail; auto|]. intros X. apply Nc. apply (Permutation_in _ P). auto.
  - split; [apply NoDup_rem; auto|]. assert (NR : NoDup (reg s)) by (eapply Permutation_NoDup; [apply Permutation_sym; eauto|auto]).
    rewrite (unregister_reg s c NR). apply NoDup_Permutation; try (apply NoDup_rem; auto). intros x. rewrite !in_remove_iff.
    split; intros [A B]; split; auto; [apply (Permutation_in _ P)|apply (Permutation_in _ (Permutation_sym P))]; auto.
  - split; [apply NoDup_rem; auto|]. assert (NR : NoDup (reg s)) by (eapply Permutation_NoDup; [apply Permutation_sym; eauto|auto]).
    destruct (signal_reg (unregister s c)) as (S1 & _). rewrite (reg_same _ _ S1).
    rewrite (unregister_reg s c NR). apply NoDup_Permutation; try (apply NoDup_rem; auto). intros x. rewrite !in_remove_iff.
    split; intros [A B]; split; auto; [apply (Permutation_in _ P)|apply (Permutation_in _ (Permutation_sym P))]; auto.
Qed.
Theorem exact : forall t s, reach t s -> fresh t -> NoDup (pending t) /\ Permutation (reg s) (pending t).
Proof.
  intros t s R. induction R as [|t s e o s' R IH E]; [cbn; split; constructor|]. intros F. pose proof (fresh_l t o F) as Ft. destruct (IH Ft) as [N P].
  eapply exact_step; eauto using step_tr.
Qed.
