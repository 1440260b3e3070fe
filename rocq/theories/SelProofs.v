(** The finer loop of ParallelService: it refines ParModel.v; what happens after Stop. *)
From Coq Require Import List Bool Arith ZArith Lia.
Import ListNotations.
From Verif Require Import ParModel ParSpec ParProofs SelModel SelSpec.

Lemma sim s e o s' : sstep s e = (o, s') -> (o = [] /\ base s' = base s) \/ step (base s) e = (o, base s').
Proof.
  assert (T : forall x y, (let '(o, b) := step (base s) e in (o, mkSel b x)) = (o, s') -> y = e -> step (base s) y = (o, base s')).
  { intros x y E ->. destruct (step (base s) e) as [o1 b1]. injection E as <- <-. reflexivity. }
  intro E. destruct e as [r|r c|r c b|r| | | | |r]; cbn [sstep] in E; unfold keep, take, sok in E;
    try (right; eapply T; [exact E|reflexivity]).
  - destruct (lp (base s)); destruct (pt s); try (injection E as <- <-; now left);
      destruct (stp (base s)); try (injection E as <- <-; now left); right; (eapply T; [exact E|reflexivity]).
  - destruct (lp (base s)); destruct (pt s); try (injection E as <- <-; now left);
      destruct (q (base s)); try (injection E as <- <-; now left); right; (eapply T; [exact E|reflexivity]).
  - destruct (lp (base s)); destruct (pt s); try (injection E as <- <-; now left);
      try (destruct (stp (base s)); injection E as <- <-; now left);
      try (destruct (q (base s)); injection E as <- <-; now left);
      try (right; eapply T; [exact E|reflexivity]);
      destruct (sema (base s)); try (injection E as <- <-; now left); right; (eapply T; [exact E|reflexivity]).
Qed.
Lemma srun_par : forall es s t s', srun s es = (t, s') -> exists fs, run (base s) fs = (t, base s').
Proof.
  induction es as [|e es IH]; cbn [srun]; intros s t s' E.
  - injection E as <- <-. now exists [].
  - destruct (sstep s e) as [o s1] eqn:X. destruct (srun s1 es) as [t1 s2] eqn:Y. injection E as <- <-.
    destruct (IH _ _ _ Y) as (fs & F). destruct (sim _ _ _ _ X) as [[-> B]|B].
    + exists fs. rewrite <- B. exact F.
    + exists (e :: fs). cbn [run]. now rewrite B, F.
Qed.
Lemma srun_app : forall es es' s t1 s1 t2 s2, srun s es = (t1, s1) -> srun s1 es' = (t2, s2) -> srun s (es ++ es') = (t1 ++ t2, s2).
Proof.
  induction es as [|e es IH]; cbn [srun app]; intros es' s t1 s1 t2 s2 E F.
  - injection E as <- <-. exact F.
  - destruct (sstep s e) as [o s3]. destruct (srun s3 es) as [t3 s4] eqn:Y. injection E as <- <-.
    rewrite (IH _ _ _ _ _ _ Y F). now rewrite app_assoc.
Qed.

(** reachable with a trace, as in ParProofs.v *)
Inductive sreach (n : nat) : list obs -> sst -> Prop :=
| sreach0 : sreach n [] (s_init n)
| sreachS t s e o s' : sreach n t s -> sstep s e = (o, s') -> sreach n (t ++ o) s'.
Lemma srun_sreach n es : forall t0 s0 t s, sreach n t0 s0 -> srun s0 es = (t, s) -> sreach n (t0 ++ t) s.
Proof.
  induction es as [|e es IH]; cbn [srun]; intros t0 s0 t s R E.
  - injection E as <- <-. now rewrite app_nil_r.
  - destruct (sstep s0 e) as [o s1] eqn:X. destruct (srun s1 es) as [t1 s2] eqn:Y. injection E as <- <-.
    rewrite app_assoc. eapply IH; [|exact Y]. econstructor; eassumption.
Qed.
Lemma sreach_reach n t s : sreach n t s -> reach n t (base s).
Proof.
  intro R. induction R as [|t s e o s' R IH E]; [constructor|]. destruct (sim _ _ _ _ E) as [[-> B]|B].
  - now rewrite app_nil_r, B.
  - econstructor; eassumption.
Qed.

(** at rest, ParModel.v is stuck *)
Lemma rest_stuck n t s : sreach n t s -> at_rest s -> stuck (base s) /\ stp (base s) = false \/ stuck (base s) /\ gone (lp (base s)).
Proof.
  intros R K. pose proof (sreach_reach n t s R) as P.
  pose proof (K Exit Logic.I) as KE. pose proof (K Recv Logic.I) as KR. pose proof (K Loop Logic.I) as KL.
  assert (KH : forall r, step (base s) (H r) = ([], base s)).
  { intro r. pose proof (K (H r) Logic.I) as X. cbn [sstep] in X. unfold keep in X. destruct (step (base s) (H r)) as [o b].
    injection X as -> X. apply (f_equal base) in X. cbn [base] in X. now subst b. }
  destruct s as [b p]. cbn [base pt] in *. cbn [sstep base pt] in KE, KR, KL. unfold take, sok in *. cbn [base pt] in *.
  destruct (lp b) as [|r|r| | |r] eqn:L.
  - destruct p.
    + exfalso. destruct (stp b) eqn:SB; [|discriminate]. destruct (step b Exit) as [o b1] eqn:E. cbn [step] in E. rewrite SB, L in E.
      injection E as <- <-. discriminate.
    + exfalso. destruct (q b) as [|r0 q0] eqn:QB; [discriminate|]. destruct (step b Recv) as [o b1] eqn:E. cbn [step] in E. rewrite L, QB in E.
      injection E as <- <-. discriminate.
    + left. destruct (stp b) eqn:SB.
      * exfalso. destruct (step b Exit) as [o b1] eqn:E. cbn [step] in E. rewrite SB, L in E. injection E as <- <-. discriminate.
      * split; [|reflexivity]. intros e I. destruct e as [r|r c|r c x|r| | | | |r]; try (destruct I; fail); auto.
        -- cbn [step]. rewrite SB. reflexivity.
        -- cbn [step]. destruct (q b) eqn:QB; [reflexivity|]. exfalso. destruct (step b Recv) as [o b1] eqn:E. cbn [step] in E. rewrite L, QB in E.
           injection E as <- <-. discriminate.
        -- cbn [step]. unfold step_loop. rewrite L. reflexivity.
  - destruct p.
    + exfalso. destruct (stp b) eqn:SB; [|discriminate]. destruct (step b Exit) as [o b1] eqn:E. cbn [step] in E. rewrite SB, L in E.
      destruct (respond_fail b r RcShutdown) as [o2 b2]. injection E as <- <-. discriminate.
    + exfalso. destruct (sema b) eqn:SB; [discriminate|]. destruct (step b Loop) as [o b1] eqn:E. discriminate.
    + left. destruct (stp b) eqn:SB.
      * exfalso. destruct (step b Exit) as [o b1] eqn:E. cbn [step] in E. rewrite SB, L in E.
        destruct (respond_fail b r RcShutdown) as [o2 b2]. injection E as <- <-. discriminate.
      * split; [|reflexivity]. intros e I. destruct e as [r'|r' c|r' c x|r'| | | | |r']; try (destruct I; fail); auto.
        -- cbn [step]. rewrite SB. reflexivity.
        -- cbn [step]. rewrite L. destruct (q b); reflexivity.
        -- cbn [step]. unfold step_loop. rewrite L. destruct (sema b) eqn:SC; [reflexivity|]. exfalso.
           destruct (step b Loop) as [o b1] eqn:E. discriminate.
  - exfalso. destruct (step b Loop) as [o b1] eqn:E. cbn [step] in E. unfold step_loop in E. rewrite L in E.
    injection KL as -> -> _. destruct (rs b r); injection E as E; apply (f_equal lp) in E; cbn in E; congruence.
  - exfalso. destruct (step b Loop) as [o b1] eqn:E. cbn [step] in E. unfold step_loop in E. rewrite L in E.
    destruct (reach_sum n t b P) as (C & l & N & M & Sm). rewrite L in Sm. cbn [token] in Sm.
    injection KL as -> -> _. destruct (Nat.ltb_spec (sema b) (cap b)); [|lia]. injection E as E; apply (f_equal lp) in E; cbn in E; congruence.
  - right. split; [|now rewrite ?L]. intros e I. destruct e as [r'|r' c|r' c x|r'| | | | |r']; try (destruct I; fail); auto.
    + cbn [step]. rewrite L. destruct (stp b); reflexivity.
    + cbn [step]. rewrite L. destruct (q b) eqn:QB; [reflexivity|]. exfalso.
      destruct (step b Recv) as [o b1] eqn:E. cbn [step] in E. rewrite L, QB in E. injection E as <- <-. discriminate.
    + cbn [step]. unfold step_loop. rewrite L. reflexivity.
  - exfalso. destruct (step b Loop) as [o b1] eqn:E. cbn [step] in E. unfold step_loop in E. rewrite L in E.
    destruct (respond b r RcShutdown []) as [o2 b2]. injection E as <- <-. injection KL as _ X _. apply (f_equal lp) in X. cbn in X. congruence.
Qed.

(** ** the steps of the loop, and the others *)
Lemma respond_hp s r c b : hp (snd (respond s r c b)) = hp s /\ lp (snd (respond s r c b)) = lp s /\ stp (snd (respond s r c b)) = stp s /\
  starts (fst (respond s r c b)) = [] /\ takes (fst (respond s r c b)) = [] /\ ~ In OExit (fst (respond s r c b)).
Proof.
  unfold respond, chain_response, ok. destruct (rs s r); try (cbn; tauto).
  destruct (ln s r && (c =? RcTimeout)%Z); cbn; repeat split; try tauto; intros [X|[]]; discriminate.
Qed.
Lemma respond_fail_hp s r c : hp (snd (respond_fail s r c)) = hp s /\ lp (snd (respond_fail s r c)) = lp s /\ stp (snd (respond_fail s r c)) = stp s /\
  starts (fst (respond_fail s r c)) = [] /\ takes (fst (respond_fail s r c)) = [] /\ ~ In OExit (fst (respond_fail s r c)).
Proof.
  unfold respond_fail, chain_response, ok. destruct (rs s r); try (cbn; tauto);
  destruct (ln s r && (c =? RcTimeout)%Z); cbn; repeat split; try tauto; intros [X|[]]; discriminate.
Qed.
Lemma starts_app t1 t2 : starts (t1 ++ t2) = starts t1 ++ starts t2. Proof. apply flat_map_app. Qed.
Lemma takes_app t1 t2 : takes (t1 ++ t2) = takes t1 ++ takes t2. Proof. apply flat_map_app. Qed.

Lemma step_other s e o s' : of_loop e = false -> sstep s e = (o, s') ->
  lp (base s') = lp (base s) /\ pt s' = pt s /\ (stp (base s) = true -> stp (base s') = true) /\ takes o = [] /\ ~ In OExit o /\
  (forall r, hp (base s') r = HRead -> hp (base s) r = HRead) /\ (forall r, In r (starts o) -> hp (base s) r = HRead) /\
  (In OStop o -> stp (base s') = true).
Proof.
  intros F E. destruct s as [b p].
  assert (U : forall f r (v : hpc) i, v <> HRead -> upd f r v i = HRead -> f i = HRead).
  { intros f r v i V X. destruct (Nat.eq_dec i r) as [->|N]; [rewrite upd_same in X; congruence|now rewrite upd_other in X]. }
  destruct e as [r|r c|r c x|r| | | | |r]; try discriminate F; cbn [sstep] in E; unfold keep in E; cbn [base pt step] in E.
  - destruct (rs b r); injection E as <- <-; cbn; intuition discriminate.
  - destruct (respond_fail_hp b r c) as (X1 & X2 & X3 & X4 & X5 & X6). destruct (respond_fail b r c) as [o1 b1] eqn:R. cbn [fst snd] in *. injection E as <- <-.
    cbn [base pt]. rewrite X1, X2, X3. change (takes (OFail r c :: o1)) with (takes o1). change (starts (OFail r c :: o1)) with (starts o1).
    rewrite X4, X5. cbn [In]. repeat split; auto; try tauto; try (intros [Y|Y]; [discriminate|tauto]).
    intros [Y|Y]; [discriminate|]. exfalso. unfold respond_fail, chain_response, ok in R.
    destruct (rs b r); try destruct (ln b r && (c =? RcTimeout)%Z); injection R as <- <-; cbn in Y; intuition discriminate.
  - destruct (hp b r) eqn:Hr; injection E as <- <-; cbn; repeat split; try tauto; try (intros [Y|[]]; discriminate).
    intros i. apply U. discriminate.
  - destruct (hp b r) eqn:Hr; injection E as <- <-; cbn; repeat split; try tauto; try (intros [Y|[]]; discriminate).
    intros i. apply U. discriminate.
  - destruct (stp b) eqn:SB; injection E as <- <-; cbn; repeat split; try tauto; try (intros [Y|[]]; discriminate).
  - unfold step_h in E. destruct (hp b r) as [| | |c x| | |] eqn:Hr; try (injection E as <- <-; cbn; tauto).
    + destruct (ln b r); injection E as <- <-; cbn.
      * repeat split; try tauto; try (intros [Y|[]]; discriminate); [intros i; apply U; discriminate|]. intros i [<-|[]]. exact Hr.
      * repeat split; try tauto. intros i; apply U; discriminate.
    + destruct (respond_hp b r c x) as (X1 & X2 & X3 & X4 & X5 & X6). destruct (respond b r c x) as [o1 b1] eqn:R. cbn [fst snd] in *. injection E as <- <-.
      cbn. rewrite X1, X2, X3, X4, X5. cbn [In]. repeat split; auto; try tauto; [intros i; apply U; discriminate|].
      intros Y. exfalso. unfold respond, chain_response, ok in R.
      destruct (rs b r); try destruct (ln b r && (c =? RcTimeout)%Z); injection R as <- <-; cbn in Y; intuition discriminate.
    + destruct (ln b r).
      * destruct (respond_fail_hp b r RcInternalError) as (X1 & X2 & X3 & X4 & X5 & X6). destruct (respond_fail b r RcInternalError) as [o1 b1] eqn:R. cbn [fst snd] in *. injection E as <- <-.
        cbn. rewrite X1, X2, X3, X4, X5. cbn [In]. repeat split; auto; try tauto; [intros i; apply U; discriminate|].
        intros Y. exfalso. unfold respond_fail, chain_response, ok in R.
        destruct (rs b r); try destruct (ln b r && (RcInternalError =? RcTimeout)%Z); injection R as <- <-; cbn in Y; intuition discriminate.
      * injection E as <- <-. cbn. repeat split; try tauto. intros i; apply U; discriminate.
    + destruct (sema b <? cap b); injection E as <- <-; cbn; repeat split; try tauto. intros i; apply U; discriminate.
Qed.

Inductive lt_move (s : sst) : lpc -> spt -> lpc -> spt -> Prop :=
| M_pass l : stp (base s) = false -> lt_move s l S1 l S2
| M_wait l : (l = LTop \/ exists r, l = LGot r) -> lt_move s l S2 l S3
| M_sem r p : p <> S1 -> lt_move s (LGot r) p (LSem r) S1
| M_noctx r p : lt_move s (LSem r) p LBack S1
| M_back p : lt_move s LBack p LTop S1
| M_ans r p : lt_move s (LAns r) p LDrain S1.
Inductive lt (s : sst) (o : list obs) (s' : sst) : Prop :=
| L_stay : o = [] -> s' = s -> lt s o s'
| L_exit : stp (base s) = true -> (lp (base s) = LTop \/ exists r, lp (base s) = LGot r) -> pt s <> S2 -> In OExit o -> starts o = [] -> takes o = [] ->
    ~ In OStop o -> lp (base s') = LDrain -> hp (base s') = hp (base s) -> lt s o s'
| L_move l p : lt_move s (lp (base s)) (pt s) l p -> lp (base s') = l -> pt s' = p -> hp (base s') = hp (base s) -> stp (base s') = stp (base s) ->
    starts o = [] -> takes o = [] -> ~ In OExit o -> ~ In OStop o -> lt s o s'
| L_recv r : (lp (base s) = LTop /\ pt s <> S1 /\ lp (base s') = LGot r \/ lp (base s) = LDrain /\ lp (base s') = LAns r) ->
    o = [ORecv r] -> pt s' = S1 -> hp (base s') = hp (base s) -> stp (base s') = stp (base s) -> lt s o s'
| L_ctx r : lp (base s) = LSem r -> o = [] -> lp (base s') = LTop -> pt s' = S1 -> hp (base s') = upd (hp (base s)) r HRead ->
    stp (base s') = stp (base s) -> lt s o s'.

Lemma step_lt s e o s' : of_loop e = true -> sstep s e = (o, s') -> lt s o s' \/ (lp (base s) = LBack /\ o = [] /\ base s' = base s /\ cap (base s) <= sema (base s)).
Proof.
  intros F E. destruct s as [b p].
  destruct e as [r|r c|r c x|r| | | | |r]; try discriminate F; cbn [sstep base pt] in E; unfold take, sok in E; cbn [base pt] in E.
  - (* Exit *) left.
    assert (X : stp b = true -> (lp b = LTop \/ exists r, lp b = LGot r) -> p <> S2 ->
       (let '(o0, b0) := step b Exit in (o0, mkSel b0 S1)) = (o, s') -> lt (mkSel b p) o s').
    { intros SB LB P E'. cbn [step] in E'. rewrite SB in E'. destruct LB as [LB|[r LB]]; rewrite LB in E'.
      - injection E' as <- <-. apply L_exit; cbn; auto. intros [Y|[]]; discriminate.
      - destruct (respond_fail_hp b r RcShutdown) as (X1 & X2 & X3 & X4 & X5 & X6). destruct (respond_fail b r RcShutdown) as [o1 b1] eqn:R. cbn [fst snd] in *.
        injection E' as <- <-. apply L_exit; cbn; auto; [right; now exists r|].
        intros [Y|Y]; [discriminate|]. unfold respond_fail, chain_response, ok in R.
        destruct (rs b r); try destruct (ln b r && (RcShutdown =? RcTimeout)%Z); injection R as <- <-; cbn in Y; intuition discriminate. }
    destruct (lp b) as [|r|r| | |r] eqn:L; destruct p; try (injection E as <- <-; now apply L_stay);
      destruct (stp b) eqn:SB; try (injection E as <- <-; now apply L_stay); apply X; auto; try discriminate; right; eexists; reflexivity.
  - (* Recv *) left. cbn [step] in E.
    destruct (lp b) as [|r|r| | |r] eqn:L; destruct p; try (injection E as <- <-; now apply L_stay);
      destruct (q b) as [|r0 q0] eqn:QB; try (injection E as <- <-; now apply L_stay);
      injection E as <- <-; apply (L_recv _ _ _ r0); cbn; auto; try (left; split; [exact L|]; split; [discriminate|reflexivity]).
  - (* Loop *) cbn [step] in E. unfold step_loop in E.
    destruct (lp b) as [|r|r| | |r] eqn:L.
    + left. destruct p.
      * destruct (stp b) eqn:SB; injection E as <- <-; [now apply L_stay|]. apply (L_move _ _ _ LTop S2); cbn; auto. rewrite L. now constructor.
      * destruct (q b); injection E as <- <-; [|now apply L_stay]. apply (L_move _ _ _ LTop S3); cbn; auto. rewrite L. constructor; now left.
      * injection E as <- <-. now apply L_stay.
    + left. destruct p.
      * destruct (stp b) eqn:SB; injection E as <- <-; [now apply L_stay|]. apply (L_move _ _ _ (LGot r) S2); cbn; auto. rewrite L. now constructor.
      * destruct (sema b); injection E as <- <-.
        -- apply (L_move _ _ _ (LGot r) S3); cbn; auto. rewrite L. constructor; right; now exists r.
        -- apply (L_move _ _ _ (LSem r) S1); cbn; auto. rewrite L. constructor; discriminate.
      * destruct (sema b); injection E as <- <-; [now apply L_stay|].
        apply (L_move _ _ _ (LSem r) S1); cbn; auto. rewrite L. constructor; discriminate.
    + left. destruct (rs b r); injection E as <- <-; try (apply (L_move _ _ _ LBack S1); cbn; auto; rewrite L; now constructor).
      apply (L_ctx _ _ _ r); cbn; auto.
    + destruct (Nat.ltb_spec (sema b) (cap b)) as [SC|SC]; injection E as <- <-; [left|right; cbn [base]; auto].
      apply (L_move _ _ _ LTop S1); cbn; auto; rewrite L; now constructor.
    + left. injection E as <- <-. now apply L_stay.
    + left. destruct (respond_hp b r RcShutdown []) as (X1 & X2 & X3 & X4 & X5 & X6). destruct (respond b r RcShutdown []) as [o1 b1] eqn:R. cbn [fst snd] in *.
      injection E as <- <-. apply (L_move _ _ _ LDrain S1); cbn; auto; [rewrite L; now constructor|].
      unfold respond, chain_response, ok in R.
      destruct (rs b r); try destruct (ln b r && (RcShutdown =? RcTimeout)%Z); injection R as <- <-; cbn; try tauto; intros [Y|[]]; discriminate.
Qed.

(** ** after Stop *)
Record A (L : list nat) (s : sst) : Prop := {
  a_stp : stp (base s) = true \/ gone (lp (base s));
  a_read : forall r, hp (base s) r = HRead -> In r L;
  a_sem : forall r, lp (base s) = LSem r -> In r L;
  a_got : forall r, lp (base s) = LGot r -> pt s <> S1 -> In r L }.
Lemma A_step L s e o s' : A L s -> sstep s e = (o, s') -> A L s' /\ incl (starts o) L.
Proof.
  intros [H1 H2 H3 H4] E. destruct (of_loop e) eqn:F.
  - destruct (step_lt _ _ _ _ F E) as [[E1 E2|E1 E2 E3 E4 E5 E6 E7 E8 E9|l p M E1 E2 E3 E4 E5 E6 E7 E8|r M E1 E2 E3 E4|r M E1 E2 E3 E4 E5]|(E1 & E2 & E3 & E4)].
    + subst. split; [now constructor|intros x []].
    + rewrite E5. split; [|intros x []]. constructor; rewrite ?E8, ?E9; auto; try discriminate. right; exact Logic.I.
    + rewrite E5. split; [|intros x []].
      inversion M as [l0 SB X1 X2 X3 X4|l0 W X1 X2 X3 X4|r p0 P X1 X2 X3 X4|r p0 X1 X2 X3 X4|p0 X1 X2 X3 X4|r p0 X1 X2 X3 X4].
      * constructor.
        -- rewrite E4, E1, <- X3. destruct H1 as [H1|H1]; [left; exact H1|right]. exact H1.
        -- rewrite E3. exact H2.
        -- intros r X. apply H3. congruence.
        -- intros r X _. destruct H1 as [H1|H1]; [congruence|]. exfalso.
           assert (Y : lp (base s) = LGot r) by congruence. rewrite Y in H1. exact H1.
      * constructor.
        -- rewrite E4, E1, <- X3. exact H1.
        -- rewrite E3. exact H2.
        -- intros r X. apply H3. congruence.
        -- intros r X _. apply H4; [congruence|]. rewrite <- X2. discriminate.
      * constructor.
        -- rewrite E4, E1, <- X3. destruct H1 as [H1|H1]; [auto|]. rewrite <- X1 in H1. destruct H1.
        -- rewrite E3. exact H2.
        -- intros i X. apply H4; [congruence|]. exact P.
        -- intros i X. congruence.
      * constructor.
        -- rewrite E4, E1, <- X3. destruct H1 as [H1|H1]; [auto|]. rewrite <- X1 in H1. destruct H1.
        -- rewrite E3. exact H2.
        -- intros i X. congruence.
        -- intros i X. congruence.
      * constructor.
        -- rewrite E4, E1, <- X3. destruct H1 as [H1|H1]; [auto|]. rewrite <- X1 in H1. destruct H1.
        -- rewrite E3. exact H2.
        -- intros i X. congruence.
        -- intros i X. congruence.
      * constructor.
        -- rewrite E4, E1, <- X3. right; exact Logic.I.
        -- rewrite E3. exact H2.
        -- intros i X. congruence.
        -- intros i X. congruence.
    + subst o. split; [|intros x []]. constructor.
      * rewrite E4. destruct M as [(M1 & M2 & M3)|[M1 M2]].
        -- destruct H1 as [H1|H1]; [auto|]. rewrite M1 in H1. destruct H1.
        -- right. rewrite M2. exact Logic.I.
      * rewrite E3. exact H2.
      * intros i X. destruct M as [(M1 & M2 & M3)|[M1 M2]]; congruence.
      * intros i X Y. congruence.
    + subst o. split; [|intros x []]. constructor.
      * rewrite E5. destruct H1 as [H1|H1]; [auto|]. rewrite M in H1. destruct H1.
      * intros i X. rewrite E4 in X. destruct (Nat.eq_dec i r) as [->|N]; [now apply H3|]. rewrite upd_other in X by exact N. auto.
      * intros i X. congruence.
      * intros i X. congruence.
    + subst o. split; [|intros x []]. constructor; rewrite ?E3; auto; intros i X; congruence.
  - destruct (step_other _ _ _ _ F E) as (E1 & E2 & E3 & E4 & E5 & E6 & E7 & E8). split; [|intros i X; auto].
    constructor; rewrite ?E1, ?E2; auto. destruct H1; auto.
Qed.
Lemma A_run L : forall es s t s', A L s -> srun s es = (t, s') -> A L s' /\ incl (starts t) L.
Proof.
  induction es as [|e es IH]; cbn [srun]; intros s t s' H E.
  - injection E as <- <-. split; [exact H|intros x []].
  - destruct (sstep s e) as [o s1] eqn:X. destruct (srun s1 es) as [t1 s2] eqn:Y. injection E as <- <-.
    destruct (A_step _ _ _ _ _ H X) as [H1 I1]. destruct (IH _ _ _ H1 Y) as [H2 I2]. split; [exact H2|].
    rewrite starts_app. now apply incl_app.
Qed.
(** who may still be started when Stop comes: at most one more than there are slots *)
Lemma A_start n t s : sreach n t s -> stp (base s) = true -> exists L, length L <= S (slots n) /\ A L s.
Proof.
  intros R SB. destruct (reach_sum n t (base s) (sreach_reach n t s R)) as (C & l & N & M & Sm).
  assert (RD : forall r, hp (base s) r = HRead -> In r l) by (intros r X; apply M; rewrite X; exact Logic.I).
  destruct (lp (base s)) as [|r|r| | |r] eqn:P; cbn [token] in Sm.
  - exists l. split; [lia|]. constructor; auto; rewrite ?P; congruence.
  - exists (r :: l). split; [cbn [length]; lia|]. constructor; auto; rewrite ?P; try congruence.
    + intros i X. right. auto.
    + intros i X _. injection X as ->. now left.
  - exists (r :: l). split; [cbn [length]; lia|]. constructor; auto; rewrite ?P; try congruence.
    + intros i X. right. auto.
    + intros i X. injection X as ->. now left.
  - exists l. split; [lia|]. constructor; auto; rewrite ?P; congruence.
  - exists l. split; [lia|]. constructor; auto; rewrite ?P; congruence.
  - exists l. split; [lia|]. constructor; auto; rewrite ?P; congruence.
Qed.

(** ** how far the loop is from leaving *)
Definition far (l : lpc) (p : spt) : nat :=
  match l, p with
  | LTop, S1 | LGot _, S1 => 1
  | LTop, S3 => 2 | LTop, S2 => 3
  | LBack, _ => 2 | LSem _, _ => 3
  | LGot _, S3 => 4 | LGot _, S2 => 5
  | LDrain, _ | LAns _, _ => 0
  end.
Definition still (s : sst) : nat := match lp (base s), pt s with LTop, S2 | LTop, S3 => 1 | _, _ => 0 end.
Lemma loop_nearer n t s e o s' : sreach n t s -> stp (base s) = true -> ~ gone (lp (base s)) -> of_loop e = true -> sstep s e = (o, s') -> ~ In OExit o ->
  (o = [] /\ s' = s) \/
  (far (lp (base s')) (pt s') < far (lp (base s)) (pt s) /\ stp (base s') = true /\ ~ gone (lp (base s')) /\ length (takes o) + still s' <= still s).
Proof.
  intros R SB G F E X. destruct s as [b p]. cbn [base pt] in *. unfold still.
  destruct (step_lt _ _ _ _ F E) as [[E1 E2|E1 E2 E3 E4 E5 E6 E7 E8 E9|l p' M E1 E2 E3 E4 E5 E6 E7 E8|r M E1 E2 E3 E4|r M E1 E2 E3 E4 E5]|(E1 & E2 & E3 & E4)]; cbn [base pt] in *.
  - now left.
  - contradiction.
  - right. rewrite E1, E2, E4, E6. cbn [length].
    inversion M as [l0 SB0 X1 X2 X3 X4|l0 W X1 X2 X3 X4|r p0 P X1 X2 X3 X4|r p0 X1 X2 X3 X4|p0 X1 X2 X3 X4|r p0 X1 X2 X3 X4]; cbn [base] in *.
    + congruence.
    + subst l p'. destruct W as [W|[r W]]; rewrite W in *; cbn; repeat split; auto; lia.
    + subst l p'. rewrite <- X1 in *. destruct p; try congruence; cbn; repeat split; auto; lia.
    + subst l p'. rewrite <- X1 in *. cbn; repeat split; auto; lia.
    + subst l p'. rewrite <- X1 in *. cbn; repeat split; auto; lia.
    + exfalso. rewrite <- X1 in G. exact (G Logic.I).
  - right. subst o. cbn [takes flat_map app length]. destruct M as [(M1 & M2 & M3)|[M1 M2]].
    + rewrite M1, M3, E2, E4. destruct p; try congruence; cbn; repeat split; auto; lia.
    + rewrite M1 in G. exfalso. exact (G Logic.I).
  - right. subst o. rewrite M, E2, E3, E5. cbn. repeat split; auto; lia.
  - exfalso. destruct (reach_sum n t b (sreach_reach n t _ R)) as (C & l & N & M & Sm). rewrite E1 in Sm. cbn [token] in Sm. lia.
Qed.

(** ** cutting a run at an observation *)
Lemma srun_cut : forall es s t s' t1 x t2, srun s es = (t, s') -> t = t1 ++ x :: t2 ->
  exists es1 e es2 ta s1 oa ob s2 tb, srun s es1 = (ta, s1) /\ sstep s1 e = (oa ++ x :: ob, s2) /\ srun s2 es2 = (tb, s') /\
    t1 = ta ++ oa /\ t2 = ob ++ tb.
Proof.
  induction es as [|e es IH]; cbn [srun]; intros s t s' t1 x t2 E T.
  - injection E as <- <-. destruct t1; discriminate.
  - destruct (sstep s e) as [o s1] eqn:X. destruct (srun s1 es) as [tr s2] eqn:Y. injection E as <- <-.
    pose proof T as T'. apply app_cut in T as [(t2' & T)|(o1 & T & ->)].
    + subst o. exists [], e, es, [], s, t1, t2', s1, tr. repeat split; auto.
      rewrite <- app_assoc in T'. apply app_inv_head in T'. cbn [app] in T'. injection T' as T'. auto.
    + destruct (IH _ _ _ _ _ _ Y T) as (es1 & e1 & es2 & ta & sa & oa & ob & sb & tb & Z1 & Z2 & Z3 & -> & ->).
      exists (e :: es1), e1, es2, (o ++ ta), sa, oa, ob, sb, tb. repeat split; auto; [|now rewrite app_assoc].
      cbn [srun]. now rewrite X, Z1.
Qed.
Lemma stop_alone s e o s' : sstep s e = (o, s') -> In OStop o -> o = [OStop] /\ stp (base s') = true.
Proof.
  intros E I. destruct (of_loop e) eqn:F.
  - exfalso. destruct (step_lt _ _ _ _ F E) as [[E1 E2|E1 E2 E3 E4 E5 E6 E7 E8 E9|l p' M E1 E2 E3 E4 E5 E6 E7 E8|r M E1 E2 E3 E4|r M E1 E2 E3 E4 E5]|(E1 & E2 & E3 & E4)]; subst; cbn in *; try tauto.
    destruct I as [I|[]]; discriminate.
  - destruct (step_other _ _ _ _ F E) as (_ & _ & _ & _ & _ & _ & _ & E8). split; [|auto].
    destruct (sim _ _ _ _ E) as [[-> _]|B]; [destruct I|]. apply step_tr in B.
    inversion B; subst; cbn in I; intuition discriminate.
Qed.
Lemma stop_waits n t s : sreach n t s -> In OStop t -> stp (base s) = true \/ In OExit t.
Proof.
  intro R. induction R as [|t s e o s' R IH E]; [intros []|]. intro I. apply in_app_iff in I as [I|I].
  - destruct (IH I) as [X|X]; [|right; apply in_app_iff; auto].
    destruct (of_loop e) eqn:F.
    + destruct (step_lt _ _ _ _ F E) as [[E1 E2|E1 E2 E3 E4 E5 E6 E7 E8 E9|l p' M E1 E2 E3 E4 E5 E6 E7 E8|r M E1 E2 E3 E4|r M E1 E2 E3 E4 E5]|(E1 & E2 & E3 & E4)].
      * subst. auto.
      * right. apply in_app_iff. auto.
      * left. congruence.
      * left. congruence.
      * left. congruence.
      * left. congruence.
    + left. destruct (step_other _ _ _ _ F E) as (_ & _ & Z & _). auto.
  - left. now apply (stop_alone _ _ _ _ E I).
Qed.
Lemma exit_gone n t s : sreach n t s -> In OExit t <-> gone (lp (base s)).
Proof. intro R. apply (w_exit t (base s)). eapply reach_WI, sreach_reach, R. Qed.

(** between Stop and the end of the loop *)
Lemma takes_run n : forall es t0 s t s', sreach n t0 s -> stp (base s) = true -> ~ In OExit (t0 ++ t) -> srun s es = (t, s') ->
  length (takes t) + still s' <= still s.
Proof.
  induction es as [|e es IH]; cbn [srun]; intros t0 s t s' R SB X E.
  - injection E as <- <-. cbn. lia.
  - destruct (sstep s e) as [o s1] eqn:E1. destruct (srun s1 es) as [t1 s2] eqn:E2. injection E as <- <-.
    assert (X1 : ~ In OExit t0) by (intro Y; apply X, in_app_iff; auto).
    assert (X2 : ~ In OExit o) by (intro Y; apply X, in_app_iff; right; apply in_app_iff; auto).
    assert (G : ~ gone (lp (base s))) by (rewrite <- (exit_gone n t0 s R); exact X1).
    assert (R1 : sreach n (t0 ++ o) s1) by (econstructor; eassumption).
    rewrite app_assoc in X. rewrite takes_app, app_length.
    assert (K : stp (base s1) = true /\ length (takes o) + still s1 <= still s).
    { destruct (of_loop e) eqn:F.
      - destruct (loop_nearer n t0 s e o s1 R SB G F E1 X2) as [[-> ->]|(_ & Y2 & _ & Y4)]; [split; [exact SB|cbn; lia]|auto].
      - destruct (step_other _ _ _ _ F E1) as (Z1 & Z2 & Z3 & Z4 & _). split; [auto|]. unfold still. rewrite Z1, Z2, Z4. cbn [length]. lia. }
    destruct K as [K1 K2]. specialize (IH _ _ _ _ R1 K1 X E2). lia.
Qed.
Lemma steps_run n : forall fs t0 s t s' k, sreach n t0 s -> stp (base s) = true -> ~ In OExit (t0 ++ t) -> srun s fs = (t, s') -> loop_steps s fs k ->
  k + far (lp (base s')) (pt s') <= far (lp (base s)) (pt s).
Proof.
  induction fs as [|e es IH]; cbn [srun]; intros t0 s t s' k R SB X E LS.
  - injection E as <- <-. inversion LS; subst. cbn. lia.
  - destruct (sstep s e) as [o s1] eqn:E1. destruct (srun s1 es) as [t1 s2] eqn:E2. injection E as <- <-.
    assert (X1 : ~ In OExit t0) by (intro Y; apply X, in_app_iff; auto).
    assert (X2 : ~ In OExit o) by (intro Y; apply X, in_app_iff; right; apply in_app_iff; auto).
    assert (G : ~ gone (lp (base s))) by (rewrite <- (exit_gone n t0 s R); exact X1).
    assert (R1 : sreach n (t0 ++ o) s1) by (econstructor; eassumption).
    rewrite app_assoc in X.
    inversion LS as [|? ? ? k' F N LS'|? ? ? ? Id LS'|? ? ? ? F LS']; subst.
    + rewrite E1 in LS', N. cbn [snd] in LS'.
      destruct (loop_nearer n t0 s e o s1 R SB G F E1 X2) as [[-> ->]|(Y1 & Y2 & _ & _)]; [congruence|].
      specialize (IH _ _ _ _ _ R1 Y2 X E2 LS'). lia.
    + rewrite E1 in Id. injection Id as -> ->. exact (IH _ _ _ _ _ R1 SB X E2 LS').
    + rewrite E1 in LS'. cbn [snd] in LS'. destruct (step_other _ _ _ _ F E1) as (Z1 & Z2 & Z3 & _).
      specialize (IH _ _ _ _ _ R1 (Z3 SB) X E2 LS'). now rewrite Z1, Z2 in IH.
Qed.
Lemma far_bound l p : far l p <= 5.
Proof. destruct l, p; cbn; lia. Qed.
Lemma nodup_starts : forall t, (forall t1 r t2, t = t1 ++ OStart r :: t2 -> ~ In (OStart r) t1) -> NoDup (starts t).
Proof.
  induction t as [|o t IH] using rev_ind; intros H; [constructor|]. rewrite starts_app.
  assert (N : NoDup (starts t)).
  { apply IH. intros t1 r t2 E. apply (H t1 r (t2 ++ [o])). rewrite E. now rewrite <- app_assoc. }
  destruct o; cbn [starts flat_map app]; rewrite ?app_nil_r; auto.
  apply NoDup_snoc; [exact N|]. intros X. apply in_flat_map in X as (o & X & Y). destruct o; cbn in Y; try tauto.
  destruct Y as [->|[]]. exact (H t r [] eq_refl X).
Qed.
