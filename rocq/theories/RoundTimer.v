(** C143: the timeout of a MultiRequest and the timeouts of its requests. *)
From Coq Require Import List Bool Arith Lia.
Import ListNotations.
From Verif Require Import MultiModel MultiSpec MultiProofs RoundModel RoundSpec RoundProofs.

Lemma rrun_snoc : forall es e s, rrun s (es ++ [e]) = match rrun s es with (t, None) => (t, None) | (t, Some s1) => let '(o, s2) := rstep s1 e in (t ++ o, s2) end.
Proof.
  induction es as [|x es IH]; intros e s; cbn.
  - destruct (rstep s e) as [o [s1|]]; rewrite ?app_nil_r; reflexivity.
  - destruct (rstep s x) as [o [s1|]]; [|reflexivity]. rewrite IH. destruct (rrun s1 es) as [t [s2|]]; [|reflexivity]. destruct (rstep s2 e). now rewrite app_assoc.
Qed.
Lemma rstep_tset s e o s' : rstep s e = (o, Some s') -> (tset s' = tset s /\ (armed s' = true -> armed s = true) /\ (forall k, e = Fire k -> armed s = true -> kp (base s) k = KIdle -> armed s' = false)) \/
  e = SetTimeout /\ idle s /\ tset s = false /\ tset s' = true.
Proof.
  assert (L : forall s x, lift s x = (o, Some s') -> tset s' = tset s /\ armed s' = armed s) by (intros a [o1 [b|]] H; cbn in H; [|discriminate]; injection H as <- <-; auto).
  destruct e as [e| | |k]; cbn [rstep].
  - destruct e; try (intro H; apply L in H; left; destruct H as [-> ->]; repeat split; auto; discriminate).
    + destruct (op (base s)); try (intro H; injection H as <- <-; left; repeat split; auto; discriminate). intro H. apply L in H. left. destruct H as [-> ->]. repeat split; auto; discriminate.
    + destruct (chan (base s)); intro H; [injection H as <- <-; left; repeat split; auto; discriminate|]. apply L in H. left. destruct H as [-> ->]. repeat split; auto; discriminate.
    + intro H. apply L in H. left. destruct H as [-> ->]. destruct (stops (base s) i); repeat split; auto; discriminate.
  - destruct (op (base s)); intro H; injection H as <- <-; left; repeat split; auto; discriminate.
  - destruct (op (base s)) eqn:E; try (intro H; injection H as <- <-; left; repeat split; auto; discriminate); destruct (tset s) eqn:T; intro H; injection H as <- <-; try (left; repeat split; auto; discriminate); right; repeat split; auto; [now left|now right].
  - destruct (armed s) eqn:A0; [|intro H; injection H as <- <-; left; repeat split; auto; congruence]. destruct (kp (base s) k) eqn:K0; try (intro H; injection H as <- <-; left; repeat split; auto; intros k' Q; injection Q as <-; congruence).
    intro H. apply L in H. left. destruct H as [-> ->]. repeat split; auto; cbn; discriminate.
Qed.
Lemma tset_mono : forall es s t s', rrun s es = (t, Some s') -> tset s = true -> tset s' = true /\ (armed s = false -> armed s' = false).
Proof.
  induction es as [|e es IH]; cbn; intros s t s' H T; [injection H as <- <-; auto|]. destruct (rstep s e) as [o [s1|]] eqn:E; [|discriminate]. destruct (rrun s1 es) as [o2 s2] eqn:F. injection H as <- ->.
  destruct (rstep_tset _ _ _ _ E) as [(Q & Q2 & _)|(_ & _ & Q & _)]; [|congruence]. destruct (IH _ _ _ F) as [X Y]; [congruence|]. split; [exact X|]. intro Z. apply Y. destruct (armed s1); trivial. rewrite Q2 in Z; auto.
Qed.
Lemma tset_had : forall es t s, rrun r_init es = (t, Some s) -> (tset s = true <-> had_timeout es).
Proof.
  induction es as [|e es IH] using List.rev_ind; intros t s H.
  - cbn in H. injection H as <- <-. split; [discriminate|]. intros (a & b & t & s & Q & _). destruct a; discriminate.
  - rewrite rrun_snoc in H. destruct (rrun r_init es) as [t1 [s1|]] eqn:R; [|discriminate]. destruct (rstep s1 e) as [o s2] eqn:E. injection H as <- ->. specialize (IH _ _ eq_refl). split.
    + intro T. destruct (rstep_tset _ _ _ _ E) as [(Q & _)|(-> & Q & _)].
      * destruct (proj1 IH) as (a & b & ta & sa & -> & X); [congruence|]. exists a, (b ++ [e]), ta, sa. split; [now rewrite <- app_assoc|exact X].
      * exists es, [], t1, s1. auto.
    + intros (a & b & ta & sa & Q & X & Y). destruct (rstep_tset _ _ _ _ E) as [(Q1 & _)|(_ & _ & _ & Q1)]; [|exact Q1]. rewrite Q1.
      destruct b as [|y b _] using List.rev_ind.
      * apply app_inj_tail in Q. destruct Q as [<- ->]. rewrite R in X. injection X as <- <-. rewrite <- Q1. cbn in E. destruct Y as [Y|Y]; rewrite Y in E; destruct (tset s1) eqn:T; injection E as <- <-; trivial.
      * rewrite app_comm_cons, app_assoc in Q. apply app_inj_tail in Q. destruct Q as [-> _]. apply IH. exists a, b, ta, sa. auto.
Qed.
Lemma fail_rn s k o s' k' : step_fail s k = KNext o s' k' -> rn s' = rn s.
Proof.
  destruct k; cbn [step_fail]; try discriminate; try (intro H; injection H as <- <- <-; reflexivity).
  - destruct (lock s); [discriminate|]. intro H; injection H as <- <- <-; reflexivity.
  - destruct (_ <? _); intro H; injection H as <- <- <-; reflexivity.
  - destruct (slots s i); [|discriminate]. intro H; injection H as <- <- <-; reflexivity.
  - unfold fail_req. destruct (dp s i); intro H; injection H as <- <- <-; reflexivity.
  - destruct (dp s i); try discriminate. intro H; injection H as <- <- <-; reflexivity.
Qed.
Lemma step_rn s e o s' : step s e = (o, Some s') -> rn s <= rn s'.
Proof.
  destruct e as [| | |i|k| |i|k|]; cbn [step].
  - destruct (op s); intro H; injection H as <- <-; cbn; lia.
  - destruct (op s); intro H; injection H as <- <-; cbn; lia.
  - destruct (op s); intro H; injection H as <- <-; cbn; lia.
  - destruct (i <? rn s); [destruct (dp s i)|]; intro H; injection H as <- <-; cbn; lia.
  - destruct (kp s k); intro H; injection H as <- <-; cbn; lia.
  - destruct (op s); try (intro H; injection H as <- <-; lia). destruct (chan s); try (intro H; injection H as <- <-; lia). destruct (chq s); [destruct (closed s)|]; intro H; injection H as <- <-; cbn; lia.
  - unfold step_resp, ok. destruct (dp s i); try (intro H; injection H as <- <-; cbn; lia).
    + destruct (lock s); [|destruct (chan s)]; intro H; injection H as <- <-; cbn; lia.
    + destruct (_ && _); intro H; injection H as <- <-; cbn; lia.
    + destruct (closed s); [discriminate|]. destruct (chan s); [destruct (_ <? _)|]; intro H; injection H as <- <-; cbn; lia.
    + destruct (closed s); [discriminate|]. intro H; injection H as <- <-; cbn; lia.
  - unfold step_canc, ok. destruct (kp s k) eqn:K; try (intro H; injection H as <- <-; lia);
      (destruct (step_fail s _) as [| |o1 s1 k1] eqn:F; [discriminate|intro H; injection H as <- <-; lia|]; apply fail_rn in F; destruct k1; intro H; injection H as <- <-; cbn; lia).
  - unfold step_owner, ok. destruct (op s) as [|i|i|i|m|m k|m| | | | | | |l| | | |]; try (intro H; injection H as <- <-; cbn; lia).
    all: try (destruct (kfail s); intro H; injection H as <- <-; cbn; lia).
    all: try (unfold fail_req; destruct (dp s i); intro H; injection H as <- <-; cbn; lia).
    all: try (destruct (lock s); intro H; injection H as <- <-; cbn; lia).
    all: try (destruct (cn s <? rn s); intro H; injection H as <- <-; cbn; lia).
    all: try (destruct (sig s); intro H; injection H as <- <-; cbn; lia).
    all: try (destruct (cn s =? rn s); intro H; injection H as <- <-; cbn; lia).
    all: try (destruct (closed s); [discriminate|]; intro H; injection H as <- <-; cbn; lia).
    + destruct k; try (intro H; injection H as <- <-; cbn; lia); (destruct (step_fail s _) as [| |o1 s1 k1] eqn:F; [discriminate|intro H; injection H as <- <-; lia|]; apply fail_rn in F; intro H; injection H as <- <-; cbn; lia).
    + destruct l; [intro H; injection H as <- <-; cbn; lia|]. destruct (closed s); [discriminate|]. destruct (_ <? _); intro H; injection H as <- <-; cbn; lia.
Qed.
Lemma rstep_inherits s e o s' i : rstep s e = (o, Some s') -> i < rn (base s) -> inherits s' i = inherits s i /\ rn (base s) <= rn (base s').
Proof.
  intros H Li. split.
  - assert (L : forall s x, lift s x = (o, Some s') -> inherits s' = inherits s) by (clear; intros a [o1 [b|]] H; cbn in H; [|discriminate]; injection H as <- <-; auto).
    revert H. destruct e as [e| | |k]; cbn [rstep].
    + destruct e; try (intro H; apply L in H; rewrite H; reflexivity).
      * destruct (op (base s)); try (intro H; injection H as <- <-; reflexivity). intro H. apply L in H. rewrite H. cbn. unfold upd. destruct (Nat.eqb_spec i (rn (base s))); [lia|reflexivity].
      * destruct (chan (base s)); intro H; [injection H as <- <-; reflexivity|]. apply L in H. rewrite H. reflexivity.
      * intro H. apply L in H. rewrite H. destruct (stops (base s) i0); reflexivity.
    + destruct (op (base s)); intro H; injection H as <- <-; reflexivity.
    + destruct (op (base s)) eqn:E; try (intro H; injection H as <- <-; reflexivity); destruct (tset s) eqn:T; intro H; injection H as <- <-; reflexivity.
    + destruct (armed s) eqn:A0; [|intro H; injection H as <- <-; reflexivity]. destruct (kp (base s) k) eqn:K0; try (intro H; injection H as <- <-; reflexivity). intro H. apply L in H. rewrite H. reflexivity.
  - destruct (base_step _ _ _ _ H) as [(e' & Es & _)|[(_ & ->)|(_ & _ & _ & ->)]]; [eapply step_rn; eauto|lia|cbn; lia].
Qed.

Lemma inherits_kept : forall es s t s' i, rrun s es = (t, Some s') -> i < rn (base s) -> inherits s' i = inherits s i.
Proof.
  induction es as [|e es IH]; cbn; intros s t s' i H Li; [injection H as <- <-; auto|]. destruct (rstep s e) as [o [s1|]] eqn:E; [|discriminate]. destruct (rrun s1 es) as [o2 s2] eqn:F. injection H as <- ->.
  destruct (rstep_inherits _ _ _ _ i E Li) as [Q Q2]. rewrite <- Q. eapply IH; eauto. lia.
Qed.
Lemma armed_set : forall es t s, rrun r_init es = (t, Some s) -> armed s = true -> tset s = true.
Proof.
  induction es as [|e es IH] using List.rev_ind; intros t s H; [cbn in H; injection H as <- <-; discriminate|].
  rewrite rrun_snoc in H. destruct (rrun r_init es) as [t1 [s1|]] eqn:R; [|discriminate]. destruct (rstep s1 e) as [o s2] eqn:E. injection H as <- ->.
  intro P. destruct (rstep_tset _ _ _ _ E) as [(-> & Q & _)|(_ & _ & _ & Q)]; [|exact Q]. eapply IH; eauto.
Qed.
Lemma expires_armed s e : expires s e -> armed s = true /\ forall o s', rstep s e = (o, Some s') -> armed s' = false.
Proof.
  intros (k & o & s' & -> & E & K & K'). assert (P : armed s = true).
  { cbn in E. destruct (armed s); [reflexivity|]. injection E as <- <-. contradiction. }
  split; [exact P|]. intros o1 s1 E1. rewrite E in E1. injection E1 as <- <-. destruct (rstep_tset _ _ _ _ E) as [(_ & _ & Q)|(Q & _)]; [eauto|discriminate].
Qed.

(** * C143 SetTimeout counts once *)
(** the timer of a MultiRequest expires at most once, whatever else happens and however often SetTimeout is called *)
Theorem C143_expires_once : forall es e es' e' t s u s1 v s2, rrun r_init es = (t, Some s) -> expires s e -> rstep s e = (u, Some s1) ->
  rrun s1 es' = (v, Some s2) -> ~ expires s2 e'.
Proof.
  intros es e es' e' t s u s1 v s2 H X E R X'. destruct (expires_armed _ _ X) as [P Q]. specialize (Q _ _ E). pose proof (armed_set _ _ _ H P) as T.
  assert (T1 : tset s1 = true) by (destruct (rstep_tset _ _ _ _ E) as [(-> & _)|(_ & _ & _ & ->)]; trivial). destruct (tset_mono _ _ _ _ R T1) as [_ Y].
  destruct (expires_armed _ _ X') as [P' _]. rewrite Y in P'; [discriminate|exact Q].
Qed.
Print Assumptions C143_expires_once.
(** it does not expire at all unless SetTimeout was called *)
Theorem C143_expires_only_set : forall es e t s, rrun r_init es = (t, Some s) -> expires s e -> had_timeout es.
Proof. intros es e t s H X. apply (tset_had _ _ _ H). apply (armed_set _ _ _ H). apply (expires_armed _ _ X). Qed.
Print Assumptions C143_expires_only_set.
(** a request made after SetTimeout keeps no timeout of its own, one made before may get one *)
Theorem C143_requests : forall es t s es' u s', rrun r_init es = (t, Some s) -> op (base s) = O0 -> rrun s (B Issue :: es') = (u, Some s') ->
  (inherits s' (rn (base s)) = true <-> had_timeout es).
Proof.
  intros es t s es' u s' H O R. rewrite <- (tset_had _ _ _ H). cbn in R. rewrite O in R. cbn in R. destruct (rrun _ es') as [o2 s2] eqn:F in R. injection R as <- ->.
  rewrite (inherits_kept _ _ _ _ (rn (base s)) F); [|cbn; lia]. cbn. unfold upd. rewrite Nat.eqb_refl. reflexivity.
Qed.
Print Assumptions C143_requests.
(** a request is made, then SetTimeout and a second request; the timer expires while Results waits, SetTimeout once
    more has no effect *)
Definition two_requests : list rev := [B Issue; B Owner; SetTimeout; B Issue; B Owner].
(** bookkeeping: the state after a schedule *)
Definition after (es : list rev) : rs := match snd (rrun r_init es) with Some s => s | None => r_init end.
Example C143_example : exists o s1 u s2, (exists t, rrun r_init two_requests = (t, Some (after two_requests))) /\ had_timeout two_requests /\
  expires (after two_requests) (Fire 0) /\ rstep (after two_requests) (Fire 0) = (o, Some s1) /\ rrun s1 [SetTimeout; Fire 1] = (u, Some s2) /\
  inherits s2 0 = false /\ inherits s2 1 = true /\ kp (base s2) 1 = KIdle /\ ~ had_timeout [B Issue; B Owner].
Proof.
  exists [], (after (two_requests ++ [Fire 0])), [], (after (two_requests ++ [Fire 0; SetTimeout; Fire 1])).
  split; [eexists; vm_compute; reflexivity|]. split.
  { exists [B Issue; B Owner], [B Issue; B Owner], [OIssued 0], (after [B Issue; B Owner]). split; [reflexivity|]. split; [vm_compute; reflexivity|]. left. vm_compute. reflexivity. }
  split. { exists 0, [], (after (two_requests ++ [Fire 0])). split; [reflexivity|]. split; [vm_compute; reflexivity|]. split; [vm_compute; reflexivity|]. vm_compute. discriminate. }
  split; [vm_compute; reflexivity|]. split; [vm_compute; reflexivity|]. split; [vm_compute; reflexivity|]. split; [vm_compute; reflexivity|]. split; [vm_compute; reflexivity|].
  intro X. apply (tset_had [B Issue; B Owner] [OIssued 0] (after [B Issue; B Owner])) in X; [vm_compute in X; discriminate|vm_compute; reflexivity].
Qed.
