(** Invariants of ParModel.v. *)
From Coq Require Import List Bool Arith ZArith Lia.
Import ListNotations.
From Verif Require Import ParModel ParSpec.

Lemma upd_same {A} (f : nat -> A) k v : upd f k v k = v.
Proof. unfold upd. now rewrite Nat.eqb_refl. Qed.
Lemma upd_other {A} (f : nat -> A) k v i : i <> k -> upd f k v i = f i.
Proof. unfold upd. intro X. destruct (Nat.eqb_spec i k); congruence. Qed.
Ltac fields := cbn [cap sema q lp rs ln hp stp w_sema w_q w_lp w_rs w_ln w_hp w_stp] in *.

Definition complete s r := w_ln (w_rs s r RDone) r false.

(** * The steps *)
Inductive tr : st -> list obs -> st -> Prop :=
| T_stay s : tr s [] s
| T_send s r : rs s r = RNew -> tr s [OSend r] (w_q (w_rs s r RPend) (q s ++ [r]))
| T_fail0 s r c : (rs s r = RDone \/ (ln s r = true /\ c = RcTimeout)) -> tr s [OFail r c] s
| T_fail s r c : rs s r <> RDone -> (ln s r = false \/ c <> RcTimeout) -> tr s [OFail r c; ODone r c []] (complete s r)
| T_ret s r c b : hp s r = HRun -> tr s [ORet r c b] (w_hp s r (HResp c b))
| T_panic s r : hp s r = HRun -> tr s [OPanic r] (w_hp s r HDone)
| T_stop s : stp s = false -> tr s [OStop] (w_stp s true)
| T_exit0 s : stp s = true -> (lp s = LTop \/ exists r, lp s = LGot r /\ rs s r = RDone) ->
    tr s [OExit] (w_lp (w_stp s false) LDrain)
| T_exit s r : stp s = true -> lp s = LGot r -> rs s r <> RDone ->
    tr s [OExit; ODone r RcShutdown []] (w_lp (w_stp (complete s r) false) LDrain)
| T_recv s r q' : q s = r :: q' -> lp s = LTop -> tr s [ORecv r] (w_lp (w_q s q') (LGot r))
| T_recvd s r q' : q s = r :: q' -> lp s = LDrain -> tr s [ORecv r] (w_lp (w_q s q') (LAns r))
| T_sem s r k : lp s = LGot r -> sema s = S k -> tr s [] (w_lp (w_sema s k) (LSem r))
| T_ctx s r : lp s = LSem r -> rs s r = RPend ->
    tr s [] (w_lp (w_hp (w_ln (w_rs s r RFly) r true) r HRead) LTop)
| T_noctx s r : lp s = LSem r -> rs s r <> RPend -> tr s [] (w_lp s LBack)
| T_back s : lp s = LBack -> sema s < cap s -> tr s [] (w_lp (w_sema s (S (sema s))) LTop)
| T_ans0 s r : lp s = LAns r -> rs s r <> RFly -> tr s [] (w_lp s LDrain)
| T_ans s r : lp s = LAns r -> rs s r = RFly -> tr s [ODone r RcShutdown []] (w_lp (complete s r) LDrain)
| T_start s r : hp s r = HRead -> ln s r = true -> tr s [OStart r] (w_hp s r HRun)
| T_nostart s r : hp s r = HRead -> ln s r = false -> tr s [] (w_hp s r HDone)
| T_resp0 s r c b : hp s r = HResp c b -> (rs s r <> RFly \/ (ln s r = true /\ c = RcTimeout)) -> tr s [] (w_hp s r HDone)
| T_resp s r c b : hp s r = HResp c b -> rs s r = RFly -> (ln s r = false \/ c <> RcTimeout) ->
    tr s [ODone r c b] (w_hp (complete s r) r HDone)
| T_inc0 s r : hp s r = HDone -> (ln s r = false \/ rs s r = RDone) -> tr s [] (w_hp s r HRel)
| T_inc s r : hp s r = HDone -> ln s r = true -> rs s r <> RDone ->
    tr s [ODone r RcInternalError []] (w_hp (complete s r) r HRel)
| T_rel s r : hp s r = HRel -> sema s < cap s -> tr s [] (w_hp (w_sema s (S (sema s))) r HEnd).

Lemma chain_cases s r c b :
  (ln s r = true /\ c = RcTimeout /\ chain_response s r c b = ([], s)) \/
  ((ln s r = false \/ c <> RcTimeout) /\ chain_response s r c b = ([ODone r c b], complete s r)).
Proof.
  unfold chain_response. destruct (ln s r) eqn:L; cbn [andb]; [|now right; split; [left|]].
  destruct (Z.eqb_spec c RcTimeout) as [->|N]; [now left|right; split; [now right|reflexivity]].
Qed.

Lemma step_tr s e o s' : step s e = (o, s') -> tr s o s'.
Proof.
  intro E. destruct e as [r|r c|r c b|r| | | | |r]; cbn [step] in E.
  - destruct (rs s r) eqn:R; injection E as <- <-; now constructor.
  - unfold respond_fail in E. destruct (rs s r) eqn:R.
    4: { injection E as <- <-. apply T_fail0. now left. }
    all: destruct (chain_cases s r c []) as [(L & C & X)|(L & X)]; rewrite X in E; injection E as <- <-;
      [apply T_fail0; now right|apply T_fail; [congruence|assumption]].
  - destruct (hp s r) eqn:R; injection E as <- <-; now constructor.
  - destruct (hp s r) eqn:R; injection E as <- <-; now constructor.
  - destruct (stp s) eqn:R; injection E as <- <-; now constructor.
  - destruct (stp s) eqn:R; [|injection E as <- <-; now constructor].
    destruct (lp s) as [|r|r| | |r] eqn:P; try (injection E as <- <-; now constructor).
    + injection E as <- <-. apply T_exit0; [assumption|now left].
    + unfold respond_fail in E. destruct (rs s r) eqn:R2.
      4: { injection E as <- <-. apply T_exit0; [assumption|right; now exists r]. }
      all: destruct (chain_cases s r RcShutdown []) as [(_ & X & _)|(_ & X)]; [discriminate|]; rewrite X in E;
        injection E as <- <-; apply T_exit; [assumption|assumption|congruence].
  - destruct (q s) as [|r q'] eqn:Q; [injection E as <- <-; now constructor|].
    destruct (lp s) eqn:P; injection E as <- <-; try (now constructor).
  - unfold step_loop in E. destruct (lp s) as [|r|r| | |r] eqn:P; try (injection E as <- <-; now constructor).
    + destruct (sema s) eqn:X; injection E as <- <-; [constructor|now apply T_sem].
    + destruct (rs s r) eqn:R; injection E as <- <-; try (now apply T_ctx); apply (T_noctx _ r); congruence.
    + destruct (Nat.ltb_spec (sema s) (cap s)); injection E as <- <-; now constructor.
    + unfold respond in E. destruct (rs s r) eqn:R; try (injection E as <- <-; apply (T_ans0 _ r); congruence).
      destruct (chain_cases s r RcShutdown []) as [(_ & X & _)|(_ & X)]; [discriminate|]. rewrite X in E.
      injection E as <- <-. now apply T_ans.
  - unfold step_h in E. destruct (hp s r) as [| | |c b| | |] eqn:P; try (injection E as <- <-; now constructor).
    + destruct (ln s r) eqn:L; injection E as <- <-; now constructor.
    + unfold respond in E. destruct (rs s r) eqn:R; try (injection E as <- <-; apply (T_resp0 _ r c b); [assumption|left; congruence]).
      destruct (chain_cases s r c b) as [(L & C & X)|(L & X)]; rewrite X in E; injection E as <- <-;
        [apply (T_resp0 _ r c b); [assumption|now right]|now apply T_resp].
    + destruct (ln s r) eqn:L; [|injection E as <- <-; apply T_inc0; [assumption|now left]].
      unfold respond_fail in E. destruct (rs s r) eqn:R.
      4: { injection E as <- <-. apply T_inc0; [assumption|now right]. }
      all: destruct (chain_cases s r RcInternalError []) as [(_ & X & _)|(_ & X)]; [discriminate|]; rewrite X in E;
        injection E as <- <-; apply T_inc; [assumption|assumption|congruence].
    + destruct (Nat.ltb_spec (sema s) (cap s)); injection E as <- <-; now constructor.
Qed.

(** * Reachable states *)
Inductive reach (n : nat) : list obs -> st -> Prop :=
| reach0 : reach n [] (p_init n)
| reachS t s e o s' : reach n t s -> step s e = (o, s') -> reach n (t ++ o) s'.
Lemma run_reach n es : forall t0 s0 t s, reach n t0 s0 -> run s0 es = (t, s) -> reach n (t0 ++ t) s.
Proof.
  induction es as [|e es IH]; cbn [run]; intros t0 s0 t s R E.
  - injection E as <- <-. now rewrite app_nil_r.
  - destruct (step s0 e) as [o s1] eqn:X. destruct (run s1 es) as [t1 s2] eqn:Y. injection E as <- <-.
    rewrite app_assoc. eapply IH; [|exact Y]. econstructor; eassumption.
Qed.
Lemma run_reach0 n es t s : run (p_init n) es = (t, s) -> reach n t s.
Proof. intro E. exact (run_reach n es [] _ t s (reach0 n) E). Qed.
Lemma reach_ind_tr n (P : list obs -> st -> Prop) :
  P [] (p_init n) -> (forall t s o s', reach n t s -> P t s -> tr s o s' -> P (t ++ o) s') ->
  forall t s, reach n t s -> P t s.
Proof. intros A B t s R. induction R; [assumption|]. eapply B; eauto using step_tr. Qed.

(** * Requests and where they are *)
Definition held (s : st) (r : nat) : Prop := lp s = LGot r \/ lp s = LSem r \/ lp s = LAns r.
Record SI (s : st) : Prop := {
  i_ln : forall r, ln s r = true <-> rs s r = RFly;
  i_new : forall r, rs s r = RNew -> hp s r = H0 /\ ~ In r (q s) /\ ~ held s r;
  i_nd : NoDup (q s);
  i_hq : forall r, held s r -> ~ In r (q s);
  i_idle : forall r, In r (q s) \/ held s r -> hp s r = H0 /\ rs s r <> RFly;
  i_h0 : forall r, hp s r = H0 -> rs s r <> RFly;
  i_hs : forall r, hp s r <> H0 -> rs s r = RFly \/ rs s r = RDone;
  i_fin : forall r, hp s r = HRel \/ hp s r = HEnd -> rs s r = RDone }.

Lemma SI_init n : SI (p_init n).
Proof.
  unfold p_init. split; fields; intros; try congruence; try tauto.
  - now split.
  - split; [reflexivity|]. split; [intros []|]. unfold held; fields. intros [X|[X|X]]; discriminate.
  - constructor.
  - now split.
  - destruct H; discriminate.
Qed.

Ltac spl r r0 := destruct (Nat.eq_dec r r0) as [->|];
  [rewrite ?upd_same in *|rewrite ?upd_other in * by assumption].

(** completing a request keeps everything, given that its handler's point is consistent *)
Lemma SI_complete s r : SI s -> rs s r <> RNew \/ True -> SI (complete s r).
Proof.
  intros [A B C D E F G J] _. unfold complete. split; fields.
  - intro i. spl i r; [split; discriminate|apply A].
  - intro i. spl i r; [discriminate|]. intro X. apply B in X. exact X.
  - assumption.
  - exact D.
  - intros i X. specialize (E i X). destruct E as [E1 E2]. split; [assumption|]. spl i r; [discriminate|assumption].
  - intros i X. spl i r; [discriminate|auto].
  - intros i X. spl i r; [now right|auto].
  - intros i X. spl i r; [reflexivity|auto].
Qed.
Lemma SI_lp_none s v : SI s -> (forall r, v <> LGot r /\ v <> LSem r /\ v <> LAns r) -> SI (w_lp s v).
Proof.
  intros [A B C D E F G J] V.
  assert (N : forall r, ~ held (w_lp s v) r).
  { intros r. unfold held; fields. destruct (V r) as (V1 & V2 & V3). tauto. }
  split; try assumption; fields.
  - intros r X. destruct (B r X) as (B1 & B2 & B3). auto.
  - intros r X. destruct (N r X).
  - intros r [X|X]; [auto|destruct (N r X)].
Qed.
Lemma SI_hp s r v : SI s -> hp s r <> H0 -> v <> H0 -> (v = HRel \/ v = HEnd -> rs s r = RDone) -> SI (w_hp s r v).
Proof.
  intros [A B C D E F G J] R V W. split; try assumption; fields.
  - intros i X. destruct (B i X) as (B1 & B2 & B3). spl i r; [congruence|auto].
  - intros i X. destruct (E i X) as (E1 & E2). spl i r; [congruence|auto].
  - intros i X. spl i r; [congruence|auto].
  - intros i X. spl i r; [auto|auto].
  - intros i X. spl i r; [auto|auto].
Qed.
Lemma SI_sema s v : SI s -> SI (w_sema s v). Proof. intros [A B C D E F G J]. split; assumption. Qed.
Lemma SI_stp s v : SI s -> SI (w_stp s v). Proof. intros [A B C D E F G J]. split; assumption. Qed.
Lemma SI_recv s r q' v : SI s -> q s = r :: q' -> (v = LGot r \/ v = LAns r) -> SI (w_lp (w_q s q') v).
Proof.
  intros [A B C D E F G J] Q V.
  assert (HV : forall i, held (w_lp (w_q s q') v) i -> i = r).
  { intros i. unfold held; fields. destruct V as [->| ->]; intros [X|[X|X]]; congruence. }
  assert (Hr : In r (q s)) by (rewrite Q; now left).
  pose proof C as C'. rewrite Q in C'. apply NoDup_cons_iff in C' as [C1 C2].
  split; try assumption; fields.
  - intros i X. destruct (B i X) as (B1 & B2 & B3). split; [assumption|]. split.
    + intro Y. apply B2. rewrite Q. now right.
    + intro Y. apply HV in Y as ->. tauto.
  - intros i Y. apply HV in Y as ->. assumption.
  - intros i [X|X]; apply E; left; [rewrite Q; now right|]. apply HV in X as ->. assumption.
Qed.
Lemma SI_sem s r k : SI s -> lp s = LGot r -> SI (w_lp (w_sema s k) (LSem r)).
Proof.
  intros [A B C D E F G J] L.
  assert (HV : forall i, held (w_lp (w_sema s k) (LSem r)) i -> held s i).
  { intros i. unfold held; fields. intros [X|[X|X]]; try discriminate. injection X as ->. now left. }
  split; try assumption; fields.
  - intros i X. destruct (B i X) as (B1 & B2 & B3). split; [assumption|]. split; [assumption|]. intro Y. apply HV in Y. auto.
  - intros i Y. apply HV in Y. auto.
  - intros i [X|X]; auto.
Qed.
Lemma NoDup_snoc {A} (l : list A) x : NoDup l -> ~ In x l -> NoDup (l ++ [x]).
Proof.
  intros N X. apply NoDup_rev in N. rewrite <- (rev_involutive (l ++ [x])). apply NoDup_rev. rewrite rev_app_distr.
  cbn [rev app]. constructor; [|assumption]. now rewrite <- in_rev.
Qed.
Lemma SI_send s r : SI s -> rs s r = RNew -> SI (w_q (w_rs s r RPend) (q s ++ [r])).
Proof.
  intros [A B C D E F G J] R. destruct (B r R) as (B1 & B2 & B3).
  split; fields.
  - intro i. spl i r; [|apply A]. split; [|discriminate]. intro X. apply A in X. congruence.
  - intros i X. spl i r; [discriminate|]. destruct (B i X) as (X1 & X2 & X3). split; [assumption|]. split; [|exact X3].
    rewrite in_app_iff. intros [Y|[Y|[]]]; auto.
  - apply NoDup_snoc; assumption.
  - intros i X. change (held s i) in X. rewrite in_app_iff. intros [Y|[Y|[]]]; [now apply (D i)|]. subst i. auto.
  - intros i X. assert (X' : i = r \/ (In i (q s) \/ held s i)).
    { destruct X as [X|X]; [|now right; right]. apply in_app_iff in X as [X|[X|[]]]; auto. }
    destruct (Nat.eq_dec i r) as [->|N]; [rewrite upd_same; split; [assumption|discriminate]|].
    rewrite upd_other by assumption. apply E. tauto.
  - intros i X. spl i r; [discriminate|auto].
  - intros i X. spl i r; [congruence|auto].
  - intros i X. spl i r; [destruct X; congruence|auto].
Qed.
Lemma SI_ctx s r : SI s -> lp s = LSem r -> rs s r = RPend -> SI (w_lp (w_hp (w_ln (w_rs s r RFly) r true) r HRead) LTop).
Proof.
  intros [A B C D E F G J] L R.
  assert (Hr : held s r) by (unfold held; auto).
  assert (HV : forall i, ~ held (w_lp (w_hp (w_ln (w_rs s r RFly) r true) r HRead) LTop) i).
  { intros i. unfold held; fields. intros [X|[X|X]]; discriminate. }
  split; fields.
  - intro i. spl i r; [tauto|apply A].
  - intros i X. spl i r; [discriminate|]. destruct (B i X) as (X1 & X2 & X3). auto.
  - assumption.
  - intros i X. destruct (HV i X).
  - intros i [X|X]; [|destruct (HV i X)]. assert (i <> r) by (intros ->; now apply (D r)).
    rewrite !upd_other by assumption. auto.
  - intros i X. spl i r; [discriminate|auto].
  - intros i X. spl i r; [auto|auto].
  - intros i X. spl i r; [destruct X; discriminate|auto].
Qed.
Lemma SI_tr s o s' : tr s o s' -> SI s -> SI s'.
Proof.
  intros T I. destruct T.
  - assumption.
  - now apply SI_send.
  - assumption.
  - apply SI_complete; auto.
  - apply SI_hp; [assumption|congruence|discriminate|intros [X|X]; discriminate].
  - apply SI_hp; [assumption|congruence|discriminate|intros [X|X]; discriminate].
  - now apply SI_stp.
  - apply SI_lp_none; [now apply SI_stp|intro r; repeat split; discriminate].
  - apply SI_lp_none; [apply SI_stp, SI_complete; auto|intro i; repeat split; discriminate].
  - eapply SI_recv; eauto.
  - eapply SI_recv; eauto.
  - now apply SI_sem.
  - now apply SI_ctx.
  - apply SI_lp_none; [assumption|intro i; repeat split; discriminate].
  - apply SI_lp_none; [now apply SI_sema|intro i; repeat split; discriminate].
  - apply SI_lp_none; [assumption|intro i; repeat split; discriminate].
  - apply SI_lp_none; [apply SI_complete; auto|intro i; repeat split; discriminate].
  - apply SI_hp; [assumption|congruence|discriminate|intros [X|X]; discriminate].
  - apply SI_hp; [assumption|congruence|discriminate|intros [X|X]; discriminate].
  - apply SI_hp; [assumption|congruence|discriminate|intros [X|X]; discriminate].
  - apply SI_hp; [apply SI_complete; auto|unfold complete; fields; congruence|discriminate|intros [X|X]; discriminate].
  - apply SI_hp; [assumption|congruence|discriminate|]. intros _. destruct H0 as [X|X]; [|assumption].
    destruct (i_hs s I r) as [Y|Y]; [congruence| |assumption]. apply (i_ln s I) in Y. congruence.
  - apply SI_hp; [apply SI_complete; auto|unfold complete; fields; congruence|discriminate|].
    intros _. unfold complete; fields. now rewrite upd_same.
  - apply SI_hp; [now apply SI_sema|fields; congruence|discriminate|]. intros _. fields. apply (i_fin s I). auto.
Qed.
Lemma reach_SI n t s : reach n t s -> SI s.
Proof. intro R. revert t s R. apply reach_ind_tr; [apply SI_init|]. intros. eapply SI_tr; eauto. Qed.

(** * The slots *)
Definition busy (h : hpc) : Prop := match h with H0 | HEnd => False | _ => True end.
Definition token (l : lpc) : nat := match l with LSem _ | LBack => 1 | _ => 0 end.
Definition sum (s : st) (n : nat) : Prop :=
  cap s = slots n /\ exists l, NoDup l /\ (forall r, In r l <-> busy (hp s r)) /\ sema s + length l + token (lp s) = slots n.

Lemma in_remove_iff {A} (d : forall x y : A, {x = y} + {x <> y}) l x y : In x (remove d y l) <-> In x l /\ x <> y.
Proof. split; [apply in_remove|intros [X Y]; now apply in_in_remove]. Qed.
Lemma NoDup_remove' {A} (d : forall x y : A, {x = y} + {x <> y}) l x : NoDup l -> NoDup (remove d x l).
Proof.
  induction l as [|a l IH]; cbn [remove]; intro N; [assumption|]. apply NoDup_cons_iff in N as [N1 N2].
  destruct (d x a); [auto|]. constructor; [|auto]. intro X. apply in_remove in X. tauto.
Qed.
Lemma length_remove {A} (d : forall x y : A, {x = y} + {x <> y}) l x :
  NoDup l -> In x l -> S (length (remove d x l)) = length l.
Proof.
  induction l as [|a l IH]; cbn [remove In length]; [intros _ []|]. intros N I. apply NoDup_cons_iff in N as [N1 N2].
  destruct (d x a) as [->|Ne].
  - now rewrite notin_remove.
  - cbn [length]. destruct I as [->|I]; [congruence|]. now rewrite IH.
Qed.

Lemma sum_same s s' n : cap s' = cap s -> sema s' + token (lp s') = sema s + token (lp s) ->
  (forall r, busy (hp s' r) <-> busy (hp s r)) -> sum s n -> sum s' n.
Proof.
  intros C E B (C0 & l & N & L & X). split; [congruence|]. exists l. repeat split; [assumption| | |lia].
  - intro Y. apply B, L, Y.
  - intro Y. apply L, B, Y.
Qed.
Lemma busy_upd f r v : (busy v <-> busy (f r)) -> forall i, busy (upd f r v i) <-> busy (f i).
Proof. intros E i. spl i r; [assumption|reflexivity]. Qed.

Lemma sum_tr s o s' n : SI s -> tr s o s' -> sum s n -> sum s' n.
Proof.
  intros I T S. destruct T; try (eapply sum_same; [| | |exact S]; unfold complete; fields; [reflexivity|try lia|try reflexivity]; fail).
  - eapply sum_same; [| | |exact S]; fields; try reflexivity. apply busy_upd. now rewrite H.
  - eapply sum_same; [| | |exact S]; fields; try reflexivity. apply busy_upd. now rewrite H.
  - eapply sum_same; [| | |exact S]; fields; try reflexivity. destruct H0 as [->|(r & -> & _)]; reflexivity.
  - eapply sum_same; [| | |exact S]; unfold complete; fields; try reflexivity. rewrite H0; reflexivity.
  - eapply sum_same; [| | |exact S]; fields; try reflexivity. rewrite H0; reflexivity.
  - eapply sum_same; [| | |exact S]; fields; try reflexivity. rewrite H0; reflexivity.
  - eapply sum_same; [| | |exact S]; fields; try reflexivity. rewrite H, H0; cbn [token]; lia.
  - destruct S as (C0 & l & N & L & X). split; [exact C0|]. exists (r :: l). fields. rewrite H in X. cbn [token length] in *.
    assert (Hr : hp s r = ParModel.H0) by (apply (i_idle s I); right; unfold held; auto).
    split; [|split; [|lia]].
    + constructor; [|assumption]. rewrite L, Hr. intros [].
    + intro i. cbn [In]. spl i r; [cbn [busy]; tauto|]. rewrite L. split; [intros [->|Y]; congruence|auto].
  - eapply sum_same; [| | |exact S]; fields; try reflexivity. rewrite H; reflexivity.
  - eapply sum_same; [| | |exact S]; fields; try reflexivity. rewrite H; cbn [token]; lia.
  - eapply sum_same; [| | |exact S]; fields; try reflexivity. rewrite H; reflexivity.
  - eapply sum_same; [| | |exact S]; unfold complete; fields; try reflexivity. rewrite H; reflexivity.
  - eapply sum_same; [| | |exact S]; fields; try reflexivity. apply busy_upd. now rewrite H.
  - eapply sum_same; [| | |exact S]; fields; try reflexivity. apply busy_upd. now rewrite H.
  - eapply sum_same; [| | |exact S]; fields; try reflexivity. apply busy_upd. now rewrite H.
  - eapply sum_same; [| | |exact S]; unfold complete; fields; try reflexivity. apply busy_upd. now rewrite H.
  - eapply sum_same; [| | |exact S]; fields; try reflexivity. apply busy_upd. now rewrite H.
  - eapply sum_same; [| | |exact S]; unfold complete; fields; try reflexivity. apply busy_upd. now rewrite H.
  - destruct S as (C0 & l & N & L & X). split; [exact C0|]. exists (remove Nat.eq_dec r l). fields.
    assert (Hr : In r l) by (apply L; now rewrite H).
    pose proof (length_remove Nat.eq_dec l r N Hr).
    split; [now apply NoDup_remove'|split; [|lia]].
    intro i. rewrite in_remove_iff, L. spl i r; cbn [busy]; tauto.
Qed.
Lemma reach_sum n t s : reach n t s -> sum s n.
Proof.
  intro R. revert t s R. apply reach_ind_tr.
  - unfold p_init. split; [reflexivity|]. exists []. fields. split; [constructor|]. split; [cbn; tauto|]. cbn. unfold slots. lia.
  - intros. eapply sum_tr; eauto using reach_SI.
Qed.

(** * How a step changes one request *)
Definition quiet (o : list obs) (r : nat) : Prop :=
  ~ In (OStart r) o /\ (forall c b, ~ In (ORet r c b) o) /\ ~ In (OPanic r) o.
Inductive hch (s : st) (o : list obs) (s' : st) (r : nat) : Prop :=
| C_same : hp s' r = hp s r -> quiet o r -> hch s o s' r
| C_ctx : lp s = LSem r -> hp s r = H0 -> hp s' r = HRead -> rs s r = RPend -> rs s' r = RFly -> o = [] -> hch s o s' r
| C_start : hp s r = HRead -> hp s' r = HRun -> o = [OStart r] -> rs s r = RFly -> hch s o s' r
| C_nostart : hp s r = HRead -> hp s' r = HDone -> o = [] -> rs s r = RDone -> hch s o s' r
| C_ret c b : hp s r = HRun -> hp s' r = HResp c b -> o = [ORet r c b] -> hch s o s' r
| C_panic : hp s r = HRun -> hp s' r = HDone -> o = [OPanic r] -> hch s o s' r
| C_resp0 c b : hp s r = HResp c b -> hp s' r = HDone -> o = [] -> rs s' r = rs s r -> (rs s r = RDone \/ c = RcTimeout) -> hch s o s' r
| C_resp c b : hp s r = HResp c b -> hp s' r = HDone -> o = [ODone r c b] -> rs s' r = RDone -> hch s o s' r
| C_inc : hp s r = HDone -> hp s' r = HRel -> (o = [] \/ o = [ODone r RcInternalError []]) -> hch s o s' r
| C_rel : hp s r = HRel -> hp s' r = HEnd -> o = [] -> hch s o s' r.

Ltac quiet_tac := unfold quiet; cbn [In]; repeat split; intros; intuition congruence.
Lemma tr_hch s o s' r : SI s -> tr s o s' -> hch s o s' r.
Proof.
  intros I T. destruct T; try (apply C_same; [reflexivity|quiet_tac]; fail); fields;
    (destruct (Nat.eq_dec r r0) as [->|N]; [|apply C_same; [unfold complete; fields; now rewrite ?upd_other by assumption|quiet_tac]]).
  - eapply C_ret; eauto. fields. apply upd_same.
  - eapply C_panic; eauto. fields. apply upd_same.
  - eapply C_ctx; eauto; fields; rewrite ?upd_same; auto. apply (i_idle s I). right. unfold held; auto.
  - eapply C_start; eauto; fields; rewrite ?upd_same; auto. apply (i_ln s I). assumption.
  - eapply C_nostart; eauto; fields; rewrite ?upd_same; auto.
    destruct (i_hs s I r0) as [Y|Y]; [congruence| |assumption]. apply (i_ln s I) in Y. congruence.
  - eapply C_resp0; eauto; fields; rewrite ?upd_same; auto. destruct H0 as [X|[_ X]]; [|auto]. left.
    destruct (i_hs s I r0) as [Y|Y]; congruence.
  - eapply C_resp; eauto; unfold complete; fields; now rewrite ?upd_same.
  - eapply C_inc; eauto. fields. apply upd_same.
  - eapply C_inc; eauto. unfold complete; fields. apply upd_same.
  - eapply C_rel; eauto. fields. apply upd_same.
Qed.

(** the responses given in a step, and why *)
Definition cause (s : st) (o : list obs) (r : nat) (c : Z) (b : list Z) : Prop :=
  (In (OFail r c) o /\ b = [] /\ (c = RcTimeout -> hp s r = H0)) \/
  (hp s r = HResp c b /\ c <> RcTimeout) \/
  (c = RcInternalError /\ b = [] /\ hp s r = HDone /\ rs s r = RFly) \/
  (c = RcShutdown /\ b = [] /\ In OExit o /\ hp s r = H0).
Lemma tr_done s o s' r : SI s -> tr s o s' ->
  (completed o = [] /\ (rs s' r = RDone <-> rs s r = RDone) /\ (forall c b, ~ In (ODone r c b) o)) \/
  (exists r0 c0 b0, completed o = [r0] /\ (rs s' r = RDone <-> r = r0 \/ rs s r = RDone) /\ rs s r0 <> RDone /\
     (forall c b, In (ODone r c b) o <-> r = r0 /\ c = c0 /\ b = b0) /\ cause s o r0 c0 b0).
Proof.
  intros I T.
  assert (LF : forall i, rs s i = RFly -> ln s i = true) by (intros i; apply (i_ln s I)).
  destruct T; fields; cbn [completed flat_map app];
    try (left; split; [reflexivity|]; split; [reflexivity|]; cbn [In]; intros; intuition congruence).
  - left. split; [reflexivity|]. split; [|cbn [In]; intros; intuition congruence]. spl r r0; [|reflexivity].
    rewrite H. split; discriminate.
  - right. exists r0, c, []. split; [reflexivity|]. split; [unfold complete; fields; spl r r0; tauto|]. split; [assumption|].
    split; [cbn [In]; intros; intuition congruence|]. left. split; [now left|]. split; [reflexivity|].
    intros ->. destruct H0 as [L|N]; [|congruence].
    destruct (hp s r0) eqn:X; [reflexivity|..]; (assert (N : hp s r0 <> ParModel.H0) by congruence);
      destruct (i_hs s I r0 N) as [Y|Y]; try contradiction; apply LF in Y; congruence.
  - right. exists r0, RcShutdown, []. split; [reflexivity|]. split; [unfold complete; fields; spl r r0; tauto|]. split; [assumption|].
    split; [cbn [In]; intros; intuition congruence|]. right; right; right. split; [reflexivity|]. split; [reflexivity|].
    split; [now left|]. apply (i_idle s I). right. unfold held; auto.
  - left. split; [reflexivity|]. split; [|cbn [In]; intros; intuition congruence]. spl r r0; [|reflexivity].
    rewrite H0. split; discriminate.
  - exfalso. destruct (i_idle s I r0) as [_ X]; [right; unfold held; auto|congruence].
  - right. exists r0, c, b. split; [reflexivity|]. split; [unfold complete; fields; spl r r0; tauto|]. split; [congruence|].
    split; [cbn [In]; intros; intuition congruence|]. right; left. split; [assumption|]. destruct H1 as [X|X]; [|assumption].
    apply LF in H0. congruence.
  - right. exists r0, RcInternalError, []. split; [reflexivity|]. split; [unfold complete; fields; spl r r0; tauto|]. split; [assumption|].
    split; [cbn [In]; intros; intuition congruence|]. right; right; left. apply (i_ln s I) in H0. auto.
Qed.

Definition late (h : hpc) : Prop := match h with HDone | HRel | HEnd => True | _ => False end.
Lemma tr_mono s o s' r : SI s -> tr s o s' ->
  (rs s r = RDone -> rs s' r = RDone) /\ (hp s r <> H0 -> hp s' r <> H0) /\
  (rs s r = RDone -> hp s r = H0 -> hp s' r = H0) /\ (late (hp s r) -> late (hp s' r)).
Proof.
  intros I T. split; [|].
  - destruct (tr_done s o s' r I T) as [(_ & E & _)|(r0 & c0 & b0 & _ & E & _)]; rewrite E; auto.
  - destruct (tr_hch s o s' r I T) as [E _|? E E'|E E'|E E'|c b E E'|E E'|c b E E'|c b E E'|E E'|E E']; rewrite ?E, ?E' in *;
      repeat split; try assumption; try congruence; cbn [late]; auto; tauto.
Qed.

(** * What the trace says *)
Lemma running_app t2 : forall t1 l, running_from l (t1 ++ t2) = running_from (running_from l t1) t2.
Proof. induction t1 as [|o t1 IH]; intro l; [reflexivity|]. destruct o; cbn [app running_from]; apply IH. Qed.
Lemma running_quiet o : (forall r, quiet o r) -> forall l, running_from l o = l.
Proof.
  induction o as [|x o IH]; intros Q l; [reflexivity|].
  assert (Q' : forall r, quiet o r).
  { intro r. destruct (Q r) as (A & B & C). cbn [In] in *. repeat split; [tauto| |tauto].
    intros c b X. apply (B c b). now right. }
  destruct x; cbn [running_from]; try (now apply IH).
  - destruct (Q r) as (A & _). destruct A. now left.
  - destruct (Q r) as (_ & A & _). destruct (A c b). now left.
  - destruct (Q r) as (_ & _ & A). destruct A. now left.
Qed.
Lemma running_started t : forall l r, In r (running_from l t) -> In r l \/ In (OStart r) t.
Proof.
  induction t as [|o t IH]; intros l r X; [now left|]. destruct o; cbn [running_from] in X; apply IH in X; cbn [In] in *;
    try (apply in_remove in X); try tauto; try (destruct X as [X|X]; [|tauto]; apply in_remove in X; tauto).
  destruct X as [[X|X]|X]; [subst; tauto|tauto|tauto].
Qed.

(** the four ways a response comes about *)
Definition source (t : list obs) (r : nat) (c : Z) (b : list Z) : Prop :=
  (In (OFail r c) t /\ b = []) \/ In (ORet r c b) t \/
  (c = RcInternalError /\ b = [] /\ (In (OPanic r) t \/ exists b', In (ORet r RcTimeout b') t)) \/
  (c = RcShutdown /\ b = [] /\ In OExit t /\ ~ In (OStart r) t).
Record TI (t : list obs) (s : st) : Prop := {
  j_nd : NoDup (running t);
  j_run : forall r, In r (running t) <-> hp s r = HRun;
  j_start : forall r, In (OStart r) t -> hp s r <> H0 /\ hp s r <> HRead;
  j_dnd : NoDup (completed t);
  j_done : forall r, In r (completed t) <-> rs s r = RDone;
  j_ret : forall r c b, In (ORet r c b) t -> hp s r = HResp c b \/
     (late (hp s r) /\ (c = RcTimeout \/ In (ODone r c b) t \/ exists c', In (ODone r c' []) t /\ In (OFail r c') t));
  j_pan : forall r, In (OPanic r) t -> late (hp s r);
  j_one : forall r c b, In (ORet r c b) t -> ~ In (OPanic r) t /\ forall c' b', In (ORet r c' b') t -> c' = c /\ b' = b;
  j_back : forall r c b, hp s r = HResp c b -> In (ORet r c b) t;
  j_fly : forall r, hp s r = HDone -> rs s r = RFly -> In (OPanic r) t \/ exists b, In (ORet r RcTimeout b) t;
  j_src : forall r c b, In (ODone r c b) t -> source t r c b;
  j_to : forall r b, In (ODone r RcTimeout b) t -> hp s r = H0;
  j_ran : forall r, In (OPanic r) t \/ (exists c b, In (ORet r c b) t) -> In (OStart r) t }.

Lemma in_completed t r : In r (completed t) <-> answered t r.
Proof.
  unfold completed, answered. rewrite in_flat_map. split.
  - intros (o & X & Y). destruct o; cbn [In] in Y; try tauto. destruct Y as [->|[]]. eauto.
  - intros (c & b & X). eexists; split; [exact X|]. now left.
Qed.
Lemma completed_app t1 t2 : completed (t1 ++ t2) = completed t1 ++ completed t2.
Proof. unfold completed. apply flat_map_app. Qed.

Lemma TI_init n : TI [] (p_init n).
Proof.
  unfold p_init. split; fields; cbn [running running_from completed flat_map In]; intros; try constructor; try tauto;
    try congruence; try discriminate.
  - repeat match goal with x : _ \/ _ |- _ => destruct x | x : exists _, _ |- _ => destruct x | x : False |- _ => destruct x end.
Qed.

Lemma quiet_else s o s' r : SI s -> tr s o s' -> (In (OStart r) o \/ (exists c b, In (ORet r c b) o) \/ In (OPanic r) o) ->
  forall i, i <> r -> quiet o i.
Proof.
  intros I T X i N.
  destruct (tr_hch s o s' r I T) as [E Q|? E E' ? ? O|E E' O|E E' O|c b E E' O|E E' O|c b E E' O|c b E E' O|E E' O|E E' O];
    [destruct Q as (Q1 & Q2 & Q3); destruct X as [X|[(c & b & X)|X]]; [tauto|destruct (Q2 c b X)|tauto]|..];
    try (destruct O as [O|O]); subst o; unfold quiet; cbn [In] in *; repeat split; intros; intuition congruence.
Qed.
Lemma quiet_dec s o s' : SI s -> tr s o s' ->
  (forall r, quiet o r) \/ exists r, In (OStart r) o \/ (exists c b, In (ORet r c b) o) \/ In (OPanic r) o.
Proof.
  intros I T. destruct T; try (left; intro; quiet_tac; fail); right; exists r; cbn [In]; eauto 8.
Qed.

Lemma TI_run t s o s' : SI s -> tr s o s' -> TI t s ->
  NoDup (running (t ++ o)) /\ forall r, In r (running (t ++ o)) <-> hp s' r = HRun.
Proof.
  intros I T J. unfold running. rewrite running_app. fold (running t).
  assert (K : (forall r, quiet o r) -> NoDup (running_from (running t) o) /\ forall r, In r (running_from (running t) o) <-> hp s' r = HRun).
  { intro Q. rewrite running_quiet by assumption. split; [apply (j_nd t s J)|]. intro r. rewrite (j_run t s J r).
    destruct (tr_hch s o s' r I T) as [E _|? E E'|E E' O|E E'|c b E E' O|E E' O|c b E E'|c b E E'|E E'|E E']; rewrite ?E, ?E';
      try tauto; try (split; discriminate); exfalso; destruct (Q r) as (Q1 & Q2 & Q3); subst o; cbn [In] in *; eauto. eapply Q2; eauto. }
  destruct (quiet_dec s o s' I T) as [Q|(r & X)]; [auto|].
  pose proof (quiet_else s o s' r I T X) as QE.
  destruct (tr_hch s o s' r I T) as [E Q|? E E' ? ? O|E E' O|E E' O|c b E E' O|E E' O|c b E E' O|c b E E' O|E E' O|E E' O];
    try (exfalso; try (destruct O as [O|O]); subst o; cbn [In] in X; repeat (destruct X as [X|X]); try (destruct X as (? & ? & X)); intuition congruence).
  - exfalso. destruct Q as (Q1 & Q2 & Q3). destruct X as [X|[(c & b & X)|X]]; [tauto|destruct (Q2 c b X)|tauto].
  - subst o. cbn [running_from]. split.
    + constructor; [|apply (j_nd t s J)]. rewrite (j_run t s J r). congruence.
    + intro i. cbn [In]. rewrite (j_run t s J i). destruct (Nat.eq_dec i r) as [->|N]; [tauto|].
      destruct (tr_hch s _ s' i I T) as [Ei _|? Ei Ei' ? ? O|Ei Ei' O|Ei Ei' O|c b Ei Ei' O|Ei Ei' O|c b Ei Ei' O|c b Ei Ei' O|Ei Ei' O|Ei Ei' O];
        try (exfalso; try (destruct O as [O|O]); congruence).
      rewrite Ei. split; [intros [->|Y]; congruence|auto].
  - subst o. cbn [running_from]. split; [apply NoDup_remove', (j_nd t s J)|].
    intro i. rewrite in_remove_iff, (j_run t s J i). destruct (Nat.eq_dec i r) as [->|N]; [split; [tauto|congruence]|].
      destruct (tr_hch s _ s' i I T) as [Ei _|? Ei Ei' ? ? O|Ei Ei' O|Ei Ei' O|c' b' Ei Ei' O|Ei Ei' O|c' b' Ei Ei' O|c' b' Ei Ei' O|Ei Ei' O|Ei Ei' O];
        try (exfalso; try (destruct O as [O|O]); congruence).
      rewrite Ei. tauto.
  - subst o. cbn [running_from]. split; [apply NoDup_remove', (j_nd t s J)|].
    intro i. rewrite in_remove_iff, (j_run t s J i). destruct (Nat.eq_dec i r) as [->|N]; [split; [tauto|congruence]|].
      destruct (tr_hch s _ s' i I T) as [Ei _|? Ei Ei' ? ? O|Ei Ei' O|Ei Ei' O|c' b' Ei Ei' O|Ei Ei' O|c' b' Ei Ei' O|c' b' Ei Ei' O|Ei Ei' O|Ei Ei' O];
        try (exfalso; try (destruct O as [O|O]); congruence).
      rewrite Ei. tauto.
Qed.

Lemma TI_tr t s o s' : SI s -> SI s' -> tr s o s' -> TI t s -> TI (t ++ o) s'.
Proof.
  intros I I' T J. destruct (TI_run t s o s' I T J) as [R1 R2]. destruct J as [A B C D E F G K L M N O P].
  assert (Mo : forall r, (rs s r = RDone -> rs s' r = RDone) /\ (hp s r <> H0 -> hp s' r <> H0) /\
    (rs s r = RDone -> hp s r = H0 -> hp s' r = H0) /\ (late (hp s r) -> late (hp s' r))).
  { intro r. exact (tr_mono s o s' r I T). }
  assert (Hc : forall r, hch s o s' r) by (intro r; exact (tr_hch s o s' r I T)).
  assert (NR : forall r, (hp s r = H0 \/ hp s r = HRead \/ hp s r = HRun) -> (forall c b, ~ In (ORet r c b) t) /\ ~ In (OPanic r) t).
  { intros r X. split.
    - intros c b Y. apply F in Y as [Y|[Y _]]; [intuition congruence|]. destruct X as [X|[X|X]]; rewrite X in Y; exact Y.
    - intro Y. apply G in Y. destruct X as [X|[X|X]]; rewrite X in Y; exact Y. }
  (* a response cannot be given twice *)
  assert (Dn : forall r c b, In (ODone r c b) t -> rs s r = RDone).
  { intros r c b X. apply E, in_completed. now exists c, b. }
  split.
  - exact R1.
  - exact R2.
  - intros r X. apply in_app_iff in X as [X|X].
    + destruct (C r X) as [C1 C2].
      destruct (Hc r) as [Ei _|? Ei Ei'|Ei Ei' O0|Ei Ei'|c b Ei Ei' O0|Ei Ei' O0|c b Ei Ei'|c b Ei Ei'|Ei Ei'|Ei Ei']; rewrite ?Ei, ?Ei' in *;
        split; congruence.
    + destruct (Hc r) as [Ei (Q1 & _)|? Ei Ei' ? ? O0|Ei Ei' O0|Ei Ei' O0|c b Ei Ei' O0|Ei Ei' O0|c b Ei Ei' O0|c b Ei Ei' O0|Ei Ei' O0|Ei Ei' O0];
        try (destruct O0 as [O0|O0]); try subst o; cbn [In] in X; try tauto; try intuition congruence.
  - rewrite completed_app. destruct (tr_done s o s' 0 I T) as [(-> & _)|(r0 & c0 & b0 & -> & _ & X & _)].
    + now rewrite app_nil_r.
    + apply NoDup_snoc; [assumption|]. now rewrite E.
  - intro r. rewrite completed_app, in_app_iff, E.
    destruct (tr_done s o s' r I T) as [(-> & -> & _)|(r0 & c0 & b0 & -> & -> & _)]; cbn [In]; [tauto|]. intuition congruence.
  - intros r c b X. apply in_app_iff in X as [X|X].
    + destruct (F r c b X) as [X1|[X1 X2]].
      * destruct (Hc r) as [Ei _|? Ei Ei'|Ei Ei' O0|Ei Ei' O0|c' b' Ei Ei' O0|Ei Ei' O0|c' b' Ei Ei' O0 Es S0|c' b' Ei Ei' O0|Ei Ei' O0|Ei Ei' O0];
          try (exfalso; congruence).
        -- left. congruence.
        -- right. split; [rewrite Ei'; exact Logic.I|]. assert (c' = c /\ b' = b) as [-> ->] by (split; congruence).
           subst o. rewrite app_nil_r. destruct S0 as [S0|S0]; [|auto]. destruct (Z.eq_dec c RcTimeout) as [Ec|Ec]; [now left|right]. apply E, in_completed in S0 as (c1 & b1 & Y).
           destruct (N r c1 b1 Y) as [(N1 & ->)|[N1|[(-> & -> & N1)|(_ & _ & _ & N1)]]].
           ++ right. now exists c1.
           ++ left. destruct (K r c b X) as [_ K1]. destruct (K1 _ _ N1) as [-> ->]. exact Y.
           ++ destruct N1 as [N1|(b2 & N1)]; [destruct (K r c b X); tauto|].
              destruct (K r c b X) as [_ K1]. destruct (K1 _ _ N1). congruence.
           ++ exfalso. apply N1. apply P. right. now exists c, b.
        -- right. split; [rewrite Ei'; exact Logic.I|]. assert (c' = c /\ b' = b) as [-> ->] by (split; congruence).
           right; left. subst o. apply in_app_iff. right. now left.
      * right. split; [now apply Mo|]. destruct X2 as [X2|[X2|(c' & X2 & X3)]]; [auto| |].
        -- right; left. apply in_app_iff; auto.
        -- right; right. exists c'. split; apply in_app_iff; auto.
    + left. destruct (Hc r) as [Ei (_ & Q2 & _)|? Ei Ei' ? ? O0|Ei Ei' O0|Ei Ei' O0|c' b' Ei Ei' O0|Ei Ei' O0|c' b' Ei Ei' O0|c' b' Ei Ei' O0|Ei Ei' O0|Ei Ei' O0];
        try (exfalso; try (destruct O0 as [O0|O0]); try subst o; cbn [In] in X; intuition congruence).
      * destruct (Q2 c b X).
      * subst o. cbn [In] in X. destruct X as [X|[]]. congruence.
  - intros r X. apply in_app_iff in X as [X|X]; [apply Mo; auto|].
    destruct (Hc r) as [Ei (_ & _ & Q3)|? Ei Ei' ? ? O0|Ei Ei' O0|Ei Ei' O0|c' b' Ei Ei' O0|Ei Ei' O0|c' b' Ei Ei' O0|c' b' Ei Ei' O0|Ei Ei' O0|Ei Ei' O0];
      try (exfalso; try (destruct O0 as [O0|O0]); try subst o; cbn [In] in X; intuition congruence).
    rewrite Ei'. exact Logic.I.
  - intros r c b X.
    assert (Z1 : In (ORet r c b) o -> o = [ORet r c b] /\ hp s r = HRun).
    { clear X; intro X. destruct (Hc r) as [Ei (_ & Q2 & Q3)|? Ei Ei' ? ? O0|Ei Ei' O0|Ei Ei' O0|c' b' Ei Ei' O0|Ei Ei' O0|c' b' Ei Ei' O0|c' b' Ei Ei' O0|Ei Ei' O0|Ei Ei' O0];
      try (exfalso; try (destruct O0 as [O0|O0]); try subst o; cbn [In] in X; intuition congruence).
      - destruct (Q2 c b X).
      - subst o. destruct X as [X|[]]. now rewrite X. }
    assert (Z2 : In (OPanic r) o -> hp s r = HRun /\ forall c b, ~ In (ORet r c b) o).
    { clear X Z1; intro X. destruct (Hc r) as [Ei (_ & Q2 & Q3)|? Ei Ei' ? ? O0|Ei Ei' O0|Ei Ei' O0|c' b' Ei Ei' O0|Ei Ei' O0|c' b' Ei Ei' O0|c' b' Ei Ei' O0|Ei Ei' O0|Ei Ei' O0];
      try (exfalso; try (destruct O0 as [O0|O0]); try subst o; cbn [In] in X; intuition congruence).
      subst o. split; [assumption|]. cbn [In]. intros; intuition congruence. }
    assert (Z3 : forall c' b', In (ORet r c' b') o -> o = [ORet r c' b'] /\ hp s r = HRun).
    { clear X Z1 Z2; intros c1 b1 X. destruct (Hc r) as [Ei (_ & Q2 & Q3)|? Ei Ei' ? ? O0|Ei Ei' O0|Ei Ei' O0|c' b' Ei Ei' O0|Ei Ei' O0|c' b' Ei Ei' O0|c' b' Ei Ei' O0|Ei Ei' O0|Ei Ei' O0];
      try (exfalso; try (destruct O0 as [O0|O0]); try subst o; cbn [In] in X; intuition congruence).
      - destruct (Q2 c1 b1 X).
      - subst o. destruct X as [X|[]]. now rewrite X. }
    apply in_app_iff in X as [X|X].
    + split.
      * rewrite in_app_iff. intros [Y|Y]; [destruct (K r c b X); tauto|]. apply Z2 in Y as [Y _].
        destruct (NR r) as [Y1 _]; [tauto|]. destruct (Y1 c b X).
      * intros c' b' Y. apply in_app_iff in Y as [Y|Y]; [now apply (K r c b X)|]. apply Z3 in Y as [_ Y].
        destruct (NR r) as [Y1 _]; [tauto|]. destruct (Y1 c b X).
    + destruct (Z1 X) as [-> Hr]. destruct (NR r) as [Y1 Y2]; [tauto|]. split.
      * rewrite in_app_iff. cbn [In]. intuition congruence.
      * intros c' b' Y. apply in_app_iff in Y as [Y|[Y|[]]]; [destruct (Y1 c' b' Y)|]. split; congruence.
  - intros r c b X. apply in_app_iff.
    destruct (Hc r) as [Ei _|? Ei Ei' ? ? O0|Ei Ei' O0|Ei Ei' O0|c' b' Ei Ei' O0|Ei Ei' O0|c' b' Ei Ei' O0|c' b' Ei Ei' O0|Ei Ei' O0|Ei Ei' O0];
      try (exfalso; congruence).
    + left. apply L. congruence.
    + right. subst o. left. congruence.
  - intros r X Y. 
    destruct (Hc r) as [Ei _|? Ei Ei' ? ? O0|Ei Ei' O0|Ei Ei' O0 Es|c' b' Ei Ei' O0|Ei Ei' O0|c' b' Ei Ei' O0 Es S0|c' b' Ei Ei' O0 Es|Ei Ei' O0|Ei Ei' O0];
      try (exfalso; congruence).
    + destruct (M r) as [Z|(b & Z)]; [congruence| |left; apply in_app_iff; auto|right; exists b; apply in_app_iff; auto].
      destruct (i_hs s I r) as [Z|Z]; [congruence|assumption|]. apply (proj1 (Mo r)) in Z. congruence.
    + apply (proj1 (Mo r)) in Es. congruence.
    + left. subst o. apply in_app_iff. right. now left.
    + destruct S0 as [S0| ->]; [apply (proj1 (Mo r)) in S0; congruence|]. right. exists b'. apply in_app_iff. left. apply L. assumption.
  - intros r c b X. apply in_app_iff in X as [X|X].
    + assert (NS : ~ In (OStart r) o).
      { intro Y. destruct (Hc r) as [Ei (Q1 & _)|? Ei Ei' ? ? O0|Ei Ei' O0 Es|Ei Ei' O0|c' b' Ei Ei' O0|Ei Ei' O0|c' b' Ei Ei' O0|c' b' Ei Ei' O0|Ei Ei' O0|Ei Ei' O0];
          try (exfalso; try (destruct O0 as [O0|O0]); try subst o; cbn [In] in Y; intuition congruence).
        apply Dn in X. congruence. }
      unfold source. rewrite !in_app_iff. destruct (N r c b X) as [N1|[N1|[(-> & -> & N1)|N1]]]; [tauto|tauto| |tauto].
      right; right; left. split; [reflexivity|]. split; [reflexivity|].
      destruct N1 as [N1|(b' & N1)]; [auto|]. right. exists b'. apply in_app_iff; auto.
    + destruct (tr_done s o s' r I T) as [(_ & _ & Z)|(r0 & c0 & b0 & _ & _ & Z1 & Z2 & Z3)]; [destruct (Z c b X)|].
      destruct (proj1 (Z2 _ _) X) as (<- & -> & ->). unfold source. rewrite !in_app_iff.
      destruct Z3 as [Z3|[(Z3 & _)|[(-> & -> & Z3 & Z4)|(-> & -> & Z3 & Z4)]]]; [tauto|auto| |].
      * right; right; left. split; [reflexivity|]. split; [reflexivity|].
        destruct (M r Z3 Z4) as [M1|(b' & M1)]; [auto|]. right. exists b'. apply in_app_iff; auto.
      * right; right; right. split; [reflexivity|]. split; [reflexivity|]. split; [auto|].
        intros [Y|Y]; [destruct (C r Y); tauto|].
        destruct (Hc r) as [Ei (Q1 & _)|? Ei Ei' ? ? O0|Ei Ei' O0 Es|Ei Ei' O0|c' b' Ei Ei' O0|Ei Ei' O0|c' b' Ei Ei' O0|c' b' Ei Ei' O0|Ei Ei' O0|Ei Ei' O0];
          try congruence; try tauto. subst o. destruct Y.
  - intros r b X. apply in_app_iff in X as [X|X].
    + apply Mo; [eapply Dn; eauto|eauto].
    + destruct (tr_done s o s' r I T) as [(_ & _ & Z)|(r0 & c0 & b0 & _ & _ & Z1 & Z2 & Z3)]; [destruct (Z _ _ X)|].
      pose proof X as X'. destruct (proj1 (Z2 _ _) X) as (<- & <- & ->).
      destruct Z3 as [(_ & _ & Z3)|[(_ & Z3)|[(Z3 & _)|(Z3 & _)]]]; try (exfalso; first [now apply Z3|discriminate Z3]).
      specialize (Z3 eq_refl).
      destruct (Hc r) as [Ei _|? Ei Ei' ? ? O0|Ei Ei' O0|Ei Ei' O0|c' b' Ei Ei' O0|Ei Ei' O0|c' b' Ei Ei' O0|c' b' Ei Ei' O0|Ei Ei' O0|Ei Ei' O0]; try (exfalso; congruence).
      * congruence.
      * subst o. destruct X'.
  - intros r X. apply in_app_iff.
    assert (Y : (In (OPanic r) t \/ exists c b, In (ORet r c b) t) \/ (In (OPanic r) o \/ exists c b, In (ORet r c b) o)).
    { destruct X as [X|(c & b & X)]; apply in_app_iff in X as [X|X]; eauto 6. }
    destruct Y as [Y|Y]; [left; auto|]. left.
    assert (Hr : hp s r = HRun).
    { destruct (Hc r) as [Ei (Q1 & Q2 & Q3)|? Ei Ei' ? ? O0|Ei Ei' O0 Es|Ei Ei' O0|c' b' Ei Ei' O0|Ei Ei' O0|c' b' Ei Ei' O0|c' b' Ei Ei' O0|Ei Ei' O0|Ei Ei' O0];
        try assumption; exfalso; [destruct Y as [Y|(c & b & Y)]; [tauto|eapply Q2; eauto]|..];
        try (destruct O0 as [O0|O0]); subst o; destruct Y as [Y|(c & b & Y)]; cbn [In] in Y; intuition congruence. }
    apply B in Hr. apply running_started in Hr as [[]|Hr]. exact Hr.
Qed.
Lemma reach_TI n t s : reach n t s -> TI t s.
Proof.
  intro R. revert t s R. apply reach_ind_tr; [apply TI_init|]. intros t s o s' R J T. 
  pose proof (reach_SI n t s R). eapply TI_tr; eauto using SI_tr.
Qed.

(** * Where a sent request is *)
Definition gone (l : lpc) : Prop := match l with LDrain | LAns _ => True | _ => False end.
Record WI (t : list obs) (s : st) : Prop := {
  w_exit : In OExit t <-> gone (lp s);
  w_new : forall r, rs s r <> RNew -> In (OSend r) t \/ rs s r = RDone;
  w_sent : forall r, In (OSend r) t -> rs s r <> RNew;
  w_where : forall r, In (OSend r) t -> ~ In OExit t -> In r (q s) \/ held s r \/ hp s r <> H0 \/ rs s r = RDone;
  w_recv : forall r, In (ORecv r) t -> ~ In OExit t -> held s r \/ hp s r <> H0 \/ rs s r = RDone;
  w_cut : forall r t1 t2, t = t1 ++ OExit :: t2 -> In (ORecv r) t1 -> hp s r <> H0 \/ rs s r = RDone;
  w_took : forall r, held s r \/ hp s r <> H0 -> In (ORecv r) t;
  w_q : forall r, In r (q s) -> In (OSend r) t }.

Lemma app_cut {A} (t o t1 t2 : list A) x : t ++ o = t1 ++ x :: t2 ->
  (exists t2', t = t1 ++ x :: t2') \/ (exists o1, o = o1 ++ x :: t2 /\ t1 = t ++ o1).
Proof.
  revert t1. induction t as [|a t IH]; intros t1 E.
  - right. now exists t1.
  - destruct t1 as [|b t1]; cbn [app] in E; injection E as <- E.
    + left. now exists t.
    + destruct (IH t1 E) as [(t2' & ->)|(o1 & -> & ->)]; [left; now exists t2'|right; now exists o1].
Qed.
Lemma WI_init n : WI [] (p_init n).
Proof.
  unfold p_init. split; fields; cbn [In gone]; intros; try tauto; try congruence.
  - destruct t1; discriminate.
  - destruct H as [[X|[X|X]]|X]; fields; congruence.
Qed.
(** where the loop's point moves *)
Lemma tr_lp s o s' : SI s -> tr s o s' ->
  (lp s' = lp s /\ ~ In OExit o /\ (forall r, ~ In (ORecv r) o)) \/
  (exists r, lp s = LTop /\ lp s' = LGot r /\ o = [ORecv r] /\ q s = r :: q s') \/
  (exists r, lp s = LDrain /\ lp s' = LAns r /\ o = [ORecv r] /\ q s = r :: q s') \/
  (exists r, lp s = LGot r /\ lp s' = LSem r /\ o = []) \/
  (exists r, lp s = LSem r /\ lp s' = LTop /\ o = [] /\ hp s' r <> H0) \/
  (exists r, lp s = LSem r /\ lp s' = LBack /\ o = [] /\ rs s r = RDone /\ rs s' r = RDone) \/
  (lp s = LBack /\ lp s' = LTop /\ o = []) \/
  (exists r, lp s = LAns r /\ lp s' = LDrain /\ ~ In OExit o /\ forall r, ~ In (ORecv r) o) \/
  (exists o', ~ gone (lp s) /\ lp s' = LDrain /\ o = OExit :: o' /\ ~ In OExit o' /\ (forall r, ~ In (ORecv r) o') /\
     forall r, held s r -> rs s' r = RDone).
Proof.
  intros I T.
  destruct T; try (left; unfold complete; fields; cbn [In]; split; [reflexivity|]; split; [|intro]; intuition congruence).
  - do 8 right. exists []. split; [destruct H0 as [->|(r & -> & _)]; exact (fun x => x)|]. split; [reflexivity|].
    split; [reflexivity|]. split; [intros []|]. split; [intros ? []|]. intros r X. fields.
    destruct H0 as [L|(r0 & L & R)]; destruct X as [X|[X|X]]; congruence.
  - do 8 right. exists [ODone r RcShutdown []]. split; [rewrite H0; exact (fun x => x)|]. split; [reflexivity|].
    split; [reflexivity|]. split; [cbn [In]; intuition congruence|]. split; [cbn [In]; intros; intuition congruence|].
    intros i X. unfold complete; fields. destruct X as [X|[X|X]]; try congruence. assert (i = r) as -> by congruence. apply upd_same.
  - right; left. exists r. auto.
  - do 2 right; left. exists r. auto.
  - do 3 right; left. exists r. auto.
  - do 4 right; left. exists r. repeat split; auto. fields. rewrite upd_same. discriminate.
  - do 5 right; left. exists r. assert (R : rs s r = RDone); [|auto].
    assert (Hr : held s r) by (unfold held; auto).
    destruct (rs s r) eqn:R; [|congruence| |reflexivity].
    + apply (i_new s I) in R. tauto.
    + destruct (i_idle s I r); [auto|congruence].
  - do 6 right; left. auto.
  - do 7 right; left. exists r. repeat split; auto.
  - do 7 right; left. exists r. unfold complete; fields. split; [assumption|]. split; [reflexivity|]. cbn [In]. split; [|intro]; intuition congruence.
Qed.
Lemma tr_q s o s' : tr s o s' ->
  (q s' = q s \/ (exists r, q s' = q s ++ [r] /\ o = [OSend r] /\ rs s' r = RPend) \/ exists r, q s = r :: q s' /\ o = [ORecv r]) /\
  (forall r, In (OSend r) o -> In r (q s') /\ rs s' r = RPend) /\
  (forall r, rs s r <> RNew -> rs s' r <> RNew) /\
  (forall r, rs s' r <> RNew -> rs s r <> RNew \/ In (OSend r) o \/ rs s' r = RDone).
Proof.
  intro T. destruct T; unfold complete; fields; cbn [In]; (split; [|split; [|split]]); auto;
    try (intros i X; repeat (destruct X as [X|X]; try discriminate); try (now destruct X); fail);
    try (intros i X; spl i r; (congruence || auto); fail).
  all: try (right; left; exists r; rewrite upd_same; auto; fail).
  all: try (right; right; exists r; auto; fail).
  all: try (intros i X; spl i r; [right; left; now left|auto]; fail).
  - intros i [X|[]]. injection X as ->. rewrite upd_same, in_app_iff. split; [right; now left|reflexivity].
  - intros i X. spl i r; [left; congruence|auto].
Qed.

Lemma WI_tr t s o s' : SI s -> tr s o s' -> WI t s -> WI (t ++ o) s'.
Proof.
  intros I T [A Bn B C D E F G].
  assert (Mo : forall r, (rs s r = RDone -> rs s' r = RDone) /\ (hp s r <> H0 -> hp s' r <> H0)).
  { intro r. destruct (tr_mono s o s' r I T) as (X & Y & _). auto. }
  destruct (tr_q s o s' T) as (Q1 & Q2 & Q3 & Q4).
  pose proof (tr_lp s o s' I T) as TL.
  assert (Hp : forall r, hp s' r <> H0 -> hp s r <> H0 \/ held s r).
  { intros r X. destruct (tr_hch s o s' r I T) as [E0 _|E0|E0|E0|c b E0|E0|c b E0|c b E0|E0|E0]; try (left; congruence).
    right. unfold held; auto. }
  assert (Ex : ~ In OExit (t ++ o) -> ~ In OExit t /\ ~ In OExit o) by (rewrite in_app_iff; tauto).
  (* a held request stays held, or is dispatched, or is answered, unless the loop has left *)
  assert (Hd : forall r, held s r -> ~ gone (lp s) -> held s' r \/ hp s' r <> H0 \/ rs s' r = RDone).
  { intros r X NG. destruct TL as [(L & _)|[(i & L & _)|[(i & L & _)|[(i & L & L' & _)|[(i & L & L' & _ & Y)|[(i & L & L' & _ & Y & Y')|[(L & _)|[(i & L & _)|(o' & _ & _ & _ & _ & _ & Y)]]]]]]]].
    - left. unfold held in *. now rewrite L.
    - destruct X as [X|[X|X]]; congruence.
    - rewrite L in NG. destruct NG. exact Logic.I.
    - left. destruct X as [X|[X|X]]; try congruence. unfold held. right; left. congruence.
    - right; left. destruct X as [X|[X|X]]; congruence.
    - right; right. destruct X as [X|[X|X]]; congruence.
    - destruct X as [X|[X|X]]; congruence.
    - rewrite L in NG. destruct NG. exact Logic.I.
    - auto. }
  split.
  - rewrite in_app_iff, A. destruct TL as [(L & L' & _)|[(i & L & L' & O & _)|[(i & L & L' & O & _)|[(i & L & L' & O)|[(i & L & L' & O & Y)|[(i & L & L' & O & Y & Y')|[(L & L' & O)|[(i & L & L' & O & _)|(o' & L & L' & O & _)]]]]]]]];
      try subst o; rewrite ?L, ?L'; cbn [gone In]; intuition congruence.
  - intros r X. apply Q4 in X as [X|[X|X]]; [|left; apply in_app_iff; auto|auto].
    apply Bn in X as [X|X]; [left; apply in_app_iff; auto|right; now apply Mo].
  - intros r X. apply in_app_iff in X as [X|X]; [now apply Q3, B|]. apply Q2 in X as [_ X]. congruence.
  - intros r X N. apply Ex in N as [N1 N2]. assert (NG : ~ gone (lp s)) by (rewrite <- A; assumption).
    apply in_app_iff in X as [X|X]; [|left; now apply Q2].
    destruct (C r X N1) as [Y|[Y|[Y|Y]]].
    + destruct Q1 as [->|[(i & -> & _)|(i & Q1 & O)]]; [auto|left; apply in_app_iff; auto|].
      rewrite Q1 in Y. destruct Y as [<-|Y]; [|auto].
      right; left. destruct TL as [(_ & _ & L)|[(j & L & L' & O' & _)|[(j & L & L' & O' & _)|[(j & _ & _ & O')|[(j & _ & _ & O' & _)|[(j & _ & _ & O' & _)|[(_ & _ & O')|[(j & _ & _ & _ & L)|(o' & _ & _ & O' & _)]]]]]]]]; try congruence.
      * destruct (L i). subst o. now left.
      * unfold held. left. congruence.
      * rewrite L in NG. destruct NG. exact Logic.I.
      * destruct (L i). subst o. now left.
    + right. now apply Hd.
    + right; right; left. now apply Mo.
    + right; right; right. now apply Mo.
  - intros r X N. apply Ex in N as [N1 N2]. assert (NG : ~ gone (lp s)) by (rewrite <- A; assumption).
    apply in_app_iff in X as [X|X].
    + destruct (D r X N1) as [Y|[Y|Y]]; [now apply Hd|right; left; now apply Mo|right; right; now apply Mo].
    + left. destruct TL as [(_ & _ & L)|[(j & L & L' & O' & _)|[(j & L & L' & O' & _)|[(j & _ & _ & O')|[(j & _ & _ & O' & _)|[(j & _ & _ & O' & _)|[(_ & _ & O')|[(j & _ & _ & _ & L)|(o' & _ & _ & O' & _)]]]]]]]];
        try (exfalso; subst o; destruct X; fail); try (exfalso; now apply (L r)).
      * subst o. destruct X as [X|[]]. unfold held. left. congruence.
      * rewrite L in NG. destruct NG. exact Logic.I.
      * destruct N2. subst o. now left.
  - intros r t1 t2 X Y. apply app_cut in X as [(t2' & X)|(o1 & X & ->)].
    + destruct (E r t1 t2' X Y) as [Z|Z]; [left|right]; now apply Mo.
    + destruct TL as [(_ & N & _)|[(j & L & L' & O' & _)|[(j & L & L' & O' & _)|[(j & _ & _ & O')|[(j & _ & _ & O' & _)|[(j & _ & _ & O' & _)|[(_ & _ & O')|[(j & _ & _ & N & _)|(o' & NG & _ & O' & N & _ & HH)]]]]]]]].
      all: try (exfalso; rewrite X in O'; destruct o1 as [|? [|? ?]]; discriminate O').
      all: try (exfalso; apply N; rewrite X; apply in_app_iff; right; now left).
      assert (o1 = []) as ->.
      { destruct o1 as [|x o1]; [reflexivity|]. rewrite X in O'. injection O' as -> O'. destruct N. rewrite <- O'.
        apply in_app_iff. right. now left. }
      rewrite app_nil_r in Y. assert (N1 : ~ In OExit t) by (rewrite A; assumption).
      destruct (D r Y N1) as [Z|[Z|Z]]; [right; auto|left; now apply Mo|right; now apply Mo].
  - intros r X. apply in_app_iff.
    assert (HH : held s' r -> held s r \/ In (ORecv r) o).
    { intro Y. destruct TL as [(L & _)|[(j & L & L' & O' & _)|[(j & L & L' & O' & _)|[(j & L & L' & O')|[(j & _ & L' & O' & _)|[(j & _ & L' & O' & _)|[(_ & L' & O')|[(j & _ & L' & _)|(o' & _ & L' & _)]]]]]]]];
        try (exfalso; destruct Y as [Y|[Y|Y]]; congruence).
      - left. unfold held in *. now rewrite <- L.
      - right. subst o. left. destruct Y as [Y|[Y|Y]]; congruence.
      - right. subst o. left. destruct Y as [Y|[Y|Y]]; congruence.
      - left. unfold held. left. destruct Y as [Y|[Y|Y]]; congruence. }
    destruct X as [X|X].
    + apply HH in X as [X|X]; [left; apply F; auto|auto].
    + left. apply F. apply Hp in X. tauto.
  - intros r X. apply in_app_iff. destruct Q1 as [Q1|[(i & Q1 & -> & _)|(i & Q1 & _)]].
    + left. apply G. now rewrite <- Q1.
    + rewrite Q1, in_app_iff in X. destruct X as [X|[X|[]]]; [auto|]. subst. right. now left.
    + left. apply G. rewrite Q1. now right.
Qed.
Lemma reach_WI n t s : reach n t s -> WI t s.
Proof.
  intro R. revert t s R. apply reach_ind_tr; [apply WI_init|]. intros t s o s' R J T. eapply WI_tr; eauto using reach_SI.
Qed.

(** * Rest *)
Lemma stuck_h n t s : reach n t s -> stuck s -> forall r, hp s r = H0 \/ hp s r = HRun \/ hp s r = HEnd.
Proof.
  intros R K r. pose proof (K (H r) Logic.I) as X. cbn [step] in X. unfold step_h in X.
  destruct (hp s r) as [| | |c b| | |] eqn:P; auto; exfalso.
  - destruct (ln s r); [discriminate|]. apply (f_equal (fun x => hp (snd x) r)) in X. cbn [snd ok] in X. fields.
    rewrite upd_same in X. congruence.
  - destruct (respond s r c b) as [o s1]. apply (f_equal (fun x => hp (snd x) r)) in X. cbn [snd ok] in X. fields.
    rewrite upd_same in X. congruence.
  - destruct (if ln s r then respond_fail s r RcInternalError else ok s) as [o s1].
    apply (f_equal (fun x => hp (snd x) r)) in X. cbn [snd ok] in X. fields. rewrite upd_same in X. congruence.
  - destruct (reach_sum n t s R) as (C & l & N & L & Sm).
    assert (Y : In r l) by (apply L; rewrite P; exact Logic.I).
    destruct l as [|a l]; [destruct Y|]. cbn [length] in Sm.
    destruct (Nat.ltb_spec (sema s) (cap s)); [|lia].
    apply (f_equal (fun x => hp (snd x) r)) in X. cbn [snd ok] in X. fields. rewrite upd_same in X. congruence.
Qed.
Lemma stuck_lp n t s : reach n t s -> stuck s ->
  (lp s = LTop /\ q s = []) \/ (exists r, lp s = LGot r /\ sema s = 0) \/ (lp s = LDrain /\ q s = []).
Proof.
  intros R K. pose proof (K Recv Logic.I) as X. pose proof (K Loop Logic.I) as Y. cbn [step] in X, Y. unfold step_loop in Y.
  destruct (lp s) as [|r|r| | |r] eqn:P.
  - left. destruct (q s); [auto|discriminate].
  - right; left. exists r. destruct (sema s); [auto|]. apply (f_equal (fun x => lp (snd x))) in Y. cbn [snd ok] in Y. fields. congruence.
  - exfalso. destruct (rs s r); apply (f_equal (fun x => lp (snd x))) in Y; cbn [snd ok] in Y; fields; congruence.
  - exfalso. destruct (reach_sum n t s R) as (C & l & N & L & Sm). rewrite P in Sm. cbn [token] in Sm.
    destruct (Nat.ltb_spec (sema s) (cap s)); [|lia]. apply (f_equal (fun x => lp (snd x))) in Y. cbn [snd ok] in Y. fields. congruence.
  - right; right. destruct (q s); [auto|discriminate].
  - exfalso. destruct (respond s r RcShutdown []) as [o s1]. apply (f_equal (fun x => lp (snd x))) in Y. cbn [snd ok] in Y. fields. congruence.
Qed.
Lemma same_length (l1 l2 : list nat) : NoDup l1 -> NoDup l2 -> (forall x, In x l1 <-> In x l2) -> length l1 = length l2.
Proof.
  intros A B E. apply Nat.le_antisymm; apply NoDup_incl_length; try assumption; intros x X; now apply E.
Qed.
Lemma running_le n t s : reach n t s -> length (running t) <= slots n.
Proof.
  intro R. destruct (reach_sum n t s R) as (C & l & N & L & Sm). destruct (reach_TI n t s R) as [A B _ _ _ _ _ _ _ _ _ _ _].
  enough (length (running t) <= length l) by lia. apply NoDup_incl_length; [assumption|].
  intros r X. apply L. apply B in X. rewrite X. exact Logic.I.
Qed.

(** * The service's own steps end *)
Definition hw (h : hpc) : nat :=
  match h with H0 => 6 | HRead => 5 | HResp _ _ => 3 | HDone => 2 | HRel => 1 | HRun | HEnd => 0 end.
Definition lw (l : lpc) : nat := match l with LTop | LDrain => 0 | LGot _ => 3 | LSem _ => 2 | LBack => 1 | LAns _ => 1 end.
Definition hsum (s : st) (l : list nat) : nat := fold_right (fun r n => hw (hp s r) + n) 0 l.
Definition meas (s : st) (l : list nat) : nat := hsum s l + 4 * length (q s) + lw (lp s) + (if stp s then 1 else 0).
Lemma hsum_ext s s' l : (forall r, In r l -> hp s' r = hp s r) -> hsum s' l = hsum s l.
Proof.
  unfold hsum. induction l as [|a l IH]; intro E; [reflexivity|]. cbn [fold_right]. rewrite IH by (intros; apply E; now right).
  rewrite E by now left. reflexivity.
Qed.
Lemma hsum_upd s s' l r v : NoDup l -> In r l -> hp s' = upd (hp s) r v -> hsum s' l + hw (hp s r) = hsum s l + hw v.
Proof.
  induction l as [|a l IH]; intros N I E; [destruct I|]. apply NoDup_cons_iff in N as [N1 N2].
  unfold hsum in *. cbn [fold_right]. destruct (Nat.eq_dec a r) as [->|Ne].
  - assert (hp s' r = v) as -> by (rewrite E; apply upd_same). fold (hsum s' l) (hsum s l). rewrite (hsum_ext s s' l); [lia|].
    intros i X. rewrite E. apply upd_other. congruence.
  - destruct I as [I|I]; [congruence|]. specialize (IH N2 I E).
    assert (hp s' a = hp s a) as -> by (rewrite E; now apply upd_other). lia.
Qed.
Definition covers (s : st) (l : list nat) : Prop := NoDup l /\ forall r, In r (q s) \/ held s r \/ hp s r <> H0 -> In r l.
Definition cover_list t := nodup Nat.eq_dec (flat_map (fun o => match o with OSend r | ORecv r => [r] | _ => [] end) t).
Lemma reach_covers n t s : reach n t s -> covers s (cover_list t).
Proof.
  intro R. destruct (reach_WI n t s R) as [_ _ _ _ _ _ F G]. split; [apply NoDup_nodup|].
  intros r X. apply nodup_In, in_flat_map. destruct X as [X|X].
  - exists (OSend r). split; [auto|now left].
  - exists (ORecv r). split; [auto|now left].
Qed.
Lemma int_step s e o s' l : SI s -> internal e -> covers s l -> step s e = (o, s') ->
  (s' = s /\ o = []) \/ (meas s' l < meas s l /\ covers s' l).
Proof.
  intros SIs I (N & C) E. unfold meas.
  assert (CV : forall s1, (forall r, In r (q s1) \/ held s1 r \/ hp s1 r <> H0 -> In r (q s) \/ held s r \/ hp s r <> H0) -> covers s1 l).
  { intros s1 X. split; [assumption|]. auto. }
  destruct e; try (destruct I; fail); cbn [step] in E.
  - destruct (stp s) eqn:S0; [|injection E as <- <-; auto].
    destruct (lp s) as [|r|r| | |r] eqn:P; try (injection E as <- <-; auto; fail); right.
    + injection E as <- <-. fields. cbn [lw]. split; [unfold hsum; fields; lia|]. apply CV. intros i X. unfold held in *; fields.
      intuition congruence.
    + assert (HP : forall o1 s1, respond_fail s r RcShutdown = (o1, s1) -> hp s1 = hp s /\ q s1 = q s).
      { intros o1 s1. unfold respond_fail, chain_response, ok. destruct (rs s r), (ln s r); cbn [andb]; try destruct (_ =? _)%Z;
          intro X; injection X as <- <-; auto. }
      destruct (respond_fail s r RcShutdown) as [o1 s1]. destruct (HP o1 s1 eq_refl) as [H1 H2]. injection E as <- <-. fields.
      unfold hsum; fields. rewrite H1, H2. cbn [lw]. split; [lia|]. apply CV. intros i X. unfold held in *; fields. rewrite H1, H2 in X.
      intuition congruence.
  - destruct (q s) as [|r q'] eqn:Q; [injection E as <- <-; auto|].
    destruct (lp s) as [|i|i| | |i] eqn:P; injection E as <- <-; try (auto; fail); right; fields; cbn [lw length];
      (split; [unfold hsum; fields; lia|]); apply CV; intros j X; unfold held in *; fields; rewrite P;
      (destruct X as [X|[X|X]]; [left; now right| |auto]); left; left; intuition congruence.
  - unfold step_loop in E. destruct (lp s) as [|r|r| | |r] eqn:P; try (injection E as <- <-; auto; fail).
    + destruct (sema s) eqn:Se; injection E as <- <-; [auto|]. right. fields. cbn [lw]. split; [unfold hsum; fields; lia|].
      apply CV. intros i X. unfold held in *; fields. rewrite P. intuition congruence.
    + right. destruct (rs s r) eqn:Rr.
      2: { injection E as <- <-. fields. cbn [lw].
        pose proof (hsum_upd s (w_lp (w_hp (w_ln (w_rs s r RFly) r true) r HRead) LTop) l r HRead N) as X.
        assert (Hr : In r l) by (apply C; right; left; unfold held; auto).
        specialize (X Hr eq_refl). cbn [hw] in X.
        split.
        - destruct (i_idle s SIs r) as [Z _]; [right; unfold held; auto|]. rewrite Z in X. cbn [hw] in X. lia.
        - apply CV. intros i Y. unfold held in *; fields. rewrite P.
          destruct (Nat.eq_dec i r) as [->|Ne]; [auto|]. rewrite upd_other in Y by assumption. intuition congruence. }
      all: injection E as <- <-; fields; cbn [lw]; split; [unfold hsum; fields; lia|]; apply CV; intros i X; unfold held in *; fields;
        intuition congruence.
    + destruct (sema s <? cap s); injection E as <- <-; [|auto]. right. fields. cbn [lw]. split; [unfold hsum; fields; lia|].
      apply CV. intros i X. unfold held in *; fields. intuition congruence.
    + right. assert (HP : forall o1 s1, respond s r RcShutdown [] = (o1, s1) -> hp s1 = hp s /\ q s1 = q s /\ stp s1 = stp s).
      { intros o1 s1. unfold respond, chain_response, ok. destruct (rs s r), (ln s r); cbn [andb]; try destruct (_ =? _)%Z;
          intro X; injection X as <- <-; auto. }
      destruct (respond s r RcShutdown []) as [o1 s1]. destruct (HP o1 s1 eq_refl) as (H1 & H2 & H3). injection E as <- <-. fields.
      unfold hsum; fields. rewrite H1, H2, H3. cbn [lw]. split; [lia|]. apply CV. intros i X. unfold held in *; fields. rewrite H1, H2 in X.
      intuition congruence.
  - unfold step_h in E. 
    assert (U : forall s1 v, hp s r <> H0 -> v <> H0 -> hw v < hw (hp s r) -> hp s1 = upd (hp s) r v -> q s1 = q s -> lp s1 = lp s -> stp s1 = stp s ->
       hsum s1 l + 4 * length (q s1) + lw (lp s1) + (if stp s1 then 1 else 0) < hsum s l + 4 * length (q s) + lw (lp s) + (if stp s then 1 else 0) /\ covers s1 l).
    { intros s1 v A V B D1 D2 D3 D4. assert (Hr : In r l) by (apply C; auto).
      pose proof (hsum_upd s s1 l r v N Hr D1). rewrite D2, D3, D4. split; [lia|]. apply CV. intros i X. unfold held in *.
      rewrite D1, D2, D3 in X. destruct (Nat.eq_dec i r) as [->|Ne]; [auto|]. rewrite upd_other in X by assumption. exact X. }
    destruct (hp s r) as [| | |c b| | |] eqn:P; try (injection E as <- <-; auto; fail).
    + destruct (ln s r); injection E as <- <-; right; (eapply U; [discriminate| | |reflexivity|reflexivity|reflexivity|reflexivity]; [discriminate|cbn; lia]).
    + right. assert (HP : forall o1 s1, respond s r c b = (o1, s1) -> hp s1 = hp s /\ q s1 = q s /\ lp s1 = lp s /\ stp s1 = stp s).
      { intros o1 s1. unfold respond, chain_response, ok. destruct (rs s r), (ln s r); cbn [andb]; try destruct (_ =? _)%Z;
          intro X; injection X as <- <-; auto. }
      destruct (respond s r c b) as [o1 s1]. destruct (HP o1 s1 eq_refl) as (H1 & H2 & H3 & H4). injection E as <- <-.
      eapply (U _ HDone); [discriminate|discriminate|cbn; lia|fields; now rewrite H1|fields; congruence..].
    + right. assert (HP : forall o1 s1, (if ln s r then respond_fail s r RcInternalError else ok s) = (o1, s1) -> hp s1 = hp s /\ q s1 = q s /\ lp s1 = lp s /\ stp s1 = stp s).
      { intros o1 s1. unfold respond_fail, chain_response, ok. destruct (ln s r); [|intro X; injection X as <- <-; auto].
        destruct (rs s r); cbn [andb]; try destruct (_ =? _)%Z; intro X; injection X as <- <-; auto. }
      destruct (if ln s r then respond_fail s r RcInternalError else ok s) as [o1 s1]. destruct (HP o1 s1 eq_refl) as (H1 & H2 & H3 & H4). injection E as <- <-.
      eapply (U _ HRel); [discriminate|discriminate|cbn; lia|fields; now rewrite H1|fields; congruence..].
    + destruct (sema s <? cap s); injection E as <- <-; [|auto]. right.
      eapply (U _ HEnd); [discriminate|discriminate|cbn; lia|fields; reflexivity|fields; congruence..].
Qed.
