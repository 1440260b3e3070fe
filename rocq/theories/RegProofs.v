(** Invariant of the registries. *)
From Coq Require Import List Bool Arith Lia Relations.
Import ListNotations.
From Verif Require Import RegModel RegSpec.

Lemma upd_same {A} (f : nat -> A) k v : upd f k v k = v.
Proof. unfold upd. now rewrite Nat.eqb_refl. Qed.
Lemma upd_other {A} (f : nat -> A) k v i : i <> k -> upd f k v i = f i.
Proof. intro N. unfold upd. apply Nat.eqb_neq in N. now rewrite N. Qed.
Ltac fields := cbn [ws wss lock nxt full refs stk pcs w_pc w_lock push ok fst snd] in *.
Ltac spl i k := destruct (Nat.eq_dec i k) as [->|?]; [rewrite ?upd_same in *|rewrite ?(upd_other _ k _ i) in * by assumption].
Definition link (m : nat -> option nat) (i : instr) (o : nat) : Prop := match i with Need t => m t = Some o | Fail => False end.
Definition ext (m m' : nat -> option nat) : Prop := forall t o, m t = Some o -> m' t = Some o.
Lemma link_ext m m' i o : ext m m' -> link m i o -> link m' i o.
Proof. intros E. destruct i; cbn; [apply E|tauto]. Qed.
Lemma links_ext m m' p l : ext m m' -> Forall2 (link m) p l -> Forall2 (link m') p l.
Proof. intros E F. induction F; constructor; [now apply (link_ext m)|assumption]. Qed.
Lemma ext_upd m t o : m t = None -> ext m (upd m t (Some o)).
Proof. intros N u v U. destruct (Nat.eq_dec u t) as [->|NE]; [congruence|]. now rewrite upd_other. Qed.
Definition fobj (f : frame) : nat := snd (fst f).

Section Types.
Variable prog : nat -> list instr.
Definition mid (c : pc) : Prop := match c with PCheck _ | PCopy _ | PBuild _ _ | PFail _ | PUnl _ _ => True | _ => False end.
Definition whole (s : st) (m : nat -> option nat) (t o : nat) : Prop := full s o = true /\ Forall2 (link m) (prog t) (refs s o).
(** while Fill runs *)
Record Bld (s : st) (t o : nat) : Prop := mkBld {
  bExt : ext (ws s) (wss s);
  bTop : wss s t = Some o;
  bOld : forall u v, wss s u = Some v -> v < nxt s;
  bInj : forall u u' v, wss s u = Some v -> wss s u' = Some v -> u = u';
  bAll : forall u v, wss s u = Some v -> whole s (wss s) u v \/ In v (map fobj (stk s));
  bStk : forall u v p, In (u, v, p) (stk s) -> wss s u = Some v /\ full s v = false /\ parts prog t u /\ exists pre, prog u = pre ++ p /\ Forall2 (link (wss s)) pre (refs s v);
  bNd : NoDup (map fobj (stk s)) }.
Record Inv (t : list obs) (s : st) : Prop := mkInv {
  iLock : forall k, lock s = Some k <-> mid (pcs s k);
  iOld : forall u v, ws s u = Some v -> v < nxt s;
  iNew : forall v, nxt s <= v -> full s v = false /\ refs s v = [];
  iInj : forall u u' v, ws s u = Some v -> ws s u' = Some v -> u = u';
  iWs : forall u v, ws s u = Some v -> whole s (ws s) u v;
  iCheck : forall k u, pcs s k = PCopy u -> ws s u = None;
  iBld : forall k u v, pcs s k = PBuild u v -> Bld s u v;
  iFail : forall k u, pcs s k = PFail u -> ~ supported prog u;
  iUnl : forall k u v, pcs s k = PUnl u v -> ws s u = Some v;
  iRet : forall k u v, In (ORet k u v) t -> ws s u = Some v;
  iPan : forall k u, In (OPanic k u) t -> ~ supported prog u;
  iCall : forall k u, In (OCall k u) t -> (match pcs s k with PLoad u' | PLock u' | PCheck u' | PCopy u' | PBuild u' _ | PFail u' | PUnl u' _ => u' = u | _ => False end) \/ (exists v, In (ORet k u v) t) \/ In (OPanic k u) t;
  iNone : forall k, pcs s k = PNew -> forall u, ~ In (OCall k u) t }.
Lemma init_inv : Inv [] s_init.
Proof. split; cbn; try discriminate; try tauto. intro k. split; [discriminate|tauto]. Qed.
(** a step of goroutine k that changes its pc, the lock, and the trace *)
Lemma pc_inv t s k c o lk :
  Inv t s ->
  (forall j, lk = Some j <-> mid (upd (pcs s) k c j)) ->
  (forall u, c = PCopy u -> ws s u = None) ->
  (forall u v, c = PBuild u v -> Bld s u v) ->
  (forall u, c = PFail u -> ~ supported prog u) ->
  (forall u v, c = PUnl u v -> ws s u = Some v) ->
  (forall j u v, In (ORet j u v) o -> ws s u = Some v) ->
  (forall j u, In (OPanic j u) o -> ~ supported prog u) ->
  (forall j u, In (OCall j u) (t ++ o) -> (match upd (pcs s) k c j with PLoad u' | PLock u' | PCheck u' | PCopy u' | PBuild u' _ | PFail u' | PUnl u' _ => u' = u | _ => False end) \/ (exists v, In (ORet j u v) (t ++ o)) \/ In (OPanic j u) (t ++ o)) ->
  (c <> PNew) -> (forall j u, In (OCall j u) o -> j = k) ->
  Inv (t ++ o) (w_pc (w_lock s lk) k c).
Proof.
  intros I HL H1 H2 H3 H4 H5 H6 H7 H8 H9. destruct I. split; fields; trivial.
  - intros j u E. spl j k; [now apply H1|now apply (iCheck0 j)].
  - intros j u v E. assert (B : Bld s u v) by (spl j k; [now apply H2|now apply (iBld0 j)]). destruct B. now split.
  - intros j u E. spl j k; [now apply H3|now apply (iFail0 j)].
  - intros j u v E. spl j k; [now apply H4|now apply (iUnl0 j)].
  - intros j u v E. apply in_app_or in E. destruct E as [E|E]; [now apply (iRet0 j)|now apply (H5 j)].
  - intros j u E. apply in_app_or in E. destruct E as [E|E]; [now apply (iPan0 j)|now apply (H6 j)].
  - intros j E u U. spl j k; [congruence|]. apply in_app_or in U. destruct U as [U|U]; [now apply (iNone0 j E u)|]. apply H9 in U. congruence.
Qed.
Lemma whole_mono s s' m m' u v : ext m m' -> (full s v = true -> full s' v = true /\ refs s' v = refs s v) -> whole s m u v -> whole s' m' u v.
Proof. intros E K [A B]. destruct (K A) as [C D]. split; [exact C|]. rewrite D. now apply (links_ext m). Qed.
Lemma parts_step t u w p pre : parts prog t u -> prog u = pre ++ Need w :: p -> parts prog t w.
Proof. intros P E. apply rt_trans with u; [exact P|]. apply rt_step. unfold part. rewrite E. apply in_or_app. right. now left. Qed.
(** a step inside Fill *)
Lemma build_inv t s s' k u v : Inv t s -> pcs s k = PBuild u v -> pcs s' = pcs s -> ws s' = ws s -> lock s' = lock s -> nxt s <= nxt s' ->
  (forall w, nxt s' <= w -> full s' w = false /\ refs s' w = []) ->
  (forall w, full s w = true -> full s' w = true /\ refs s' w = refs s w) -> Bld s' u v -> Inv t s'.
Proof.
  intros I E P W L N F K B. assert (U : forall j, mid (pcs s j) -> j = k).
  { intros j M. apply (iLock _ _ I) in M. assert (M' : mid (pcs s k)) by now rewrite E. apply (iLock _ _ I) in M'. congruence. }
  destruct I. split; rewrite ?P, ?W, ?L; trivial.
  - intros x y X. specialize (iOld0 x y X). lia.
  - intros x y X. apply (whole_mono s s' (ws s)); [now intros ? ?|apply K|now apply iWs0].
  - intros j x y X. assert (j = k) by (apply U; now rewrite X). subst j. rewrite E in X. now injection X as <- <-.
Qed.
Lemma in_fobj (f : frame) l : In f l -> In (fobj f) (map fobj l).
Proof. apply in_map. Qed.
Lemma bld_build t s k u v : Inv t s -> pcs s k = PBuild u v -> Inv t (snd (step_build prog s k u v)) /\ fst (step_build prog s k u v) = [].
Proof.
  intros I E. pose proof (iBld _ _ I k u v E) as B. unfold step_build. destruct (stk s) as [|[[t1 o1] p] rest] eqn:K.
  { split; [|reflexivity]. fields. assert (M : forall j, mid (pcs s j) -> j = k).
    { intros j M. apply (iLock _ _ I) in M. assert (M' : mid (pcs s k)) by now rewrite E. apply (iLock _ _ I) in M'. congruence. }
    destruct B. destruct I. split; fields; trivial.
    - intro j. rewrite iLock0. spl j k; [rewrite E; cbn; tauto|tauto].
    - intros x y X. destruct (bAll0 x y X) as [A|A]; [exact A|]. now rewrite K in A.
    - intros j x X. spl j k; [discriminate|]. exfalso. assert (j = k) by (apply M; now rewrite X). congruence.
    - intros j x y X. spl j k; [discriminate|]. exfalso. assert (j = k) by (apply M; now rewrite X). congruence.
    - intros j x X. spl j k; [discriminate|]. now apply (iFail0 j).
    - intros j x y X. spl j k; [now injection X as <- <-|]. apply bExt0. now apply (iUnl0 j).
    - intros j x y X. apply bExt0. now apply (iRet0 j).
    - intros j x X. specialize (iCall0 j x X). spl j k; [|exact iCall0]. rewrite E in iCall0. exact iCall0.
    - intros j X. spl j k; [discriminate|]. now apply iNone0. }
  assert (F1 : In (t1, o1, p) (stk s)) by (rewrite K; now left). destruct (bStk _ _ _ B _ _ _ F1) as (S1 & S2 & S3 & pre & S4 & S5).
  assert (ND : ~ In o1 (map fobj rest) /\ NoDup (map fobj rest)) by (pose proof (bNd _ _ _ B) as ND; rewrite K in ND; cbn in ND; inversion ND; now split).
  destruct ND as [ND1 ND2].
  assert (RS : forall x y q, In (x, y, q) rest -> In (x, y, q) (stk s) /\ y <> o1).
  { intros x y q X. split; [rewrite K; now right|]. intros ->. apply ND1. now apply (in_fobj (x, o1, q)). }
  destruct p as [|[t2|] p].
  - split; [|reflexivity]. apply (build_inv t s _ k u v); trivial; fields.
    + intros w W. pose proof (iNew _ _ I w W) as [A1 A2]. split; [|exact A2]. pose proof (bOld _ _ _ B _ _ S1). rewrite upd_other by lia. exact A1.
    + intros w W. split; [|reflexivity]. spl w o1; trivial.
    + rewrite app_nil_r in S4. subst pre. destruct B. split; fields; trivial.
      * intros x y X. destruct (bAll0 x y X) as [A|A].
        { left. apply (whole_mono s _ (wss s)); [now intros ? ?| |exact A]. intro W. cbn. split; [|reflexivity]. spl y o1; trivial. }
        rewrite K in A. cbn in A. destruct A as [A|A]; [|now right]. unfold fobj in A. cbn in A. subst y. rewrite (bInj0 x t1 o1 X S1). left. split; fields; [now rewrite upd_same|exact S5].
      * intros x y q X. destruct (RS _ _ _ X) as [R1 R2]. destruct (bStk0 _ _ _ R1) as (A1 & A2 & A3 & A4). rewrite upd_other by exact R2. now repeat split.
  - rewrite <- (app_nil_l (Need t2 :: p)) in S4. cbn in S4.
    assert (PA : parts prog u t2) by now apply (parts_step u t1 t2 p pre).
    assert (S4' : prog t1 = (pre ++ [Need t2]) ++ p) by (rewrite S4, <- app_assoc; reflexivity).
    destruct (wss s t2) as [o2|] eqn:N2.
    + split; [|reflexivity]. apply (build_inv t s _ k u v); trivial; fields.
      * intros w W. pose proof (iNew _ _ I w W) as [A1 A2]. split; [exact A1|]. pose proof (bOld _ _ _ B _ _ S1). rewrite upd_other by lia. exact A2.
      * intros w W. split; [exact W|]. rewrite upd_other by congruence. reflexivity.
      * destruct B. split; fields; trivial.
        { intros x y X. destruct (bAll0 x y X) as [A|A]; [|right; rewrite K in A; exact A]. left. apply (whole_mono s _ (wss s)); [now intros ? ?| |exact A]. intro W. cbn. split; [exact W|]. rewrite upd_other by congruence. reflexivity. }
        { intros x y q [X|X].
          - injection X as <- <- <-. split; [exact S1|]. split; [exact S2|]. split; [exact S3|]. exists (pre ++ [Need t2]). split; [exact S4'|]. rewrite upd_same. apply Forall2_app; [exact S5|]. constructor; [exact N2|constructor].
          - destruct (RS _ _ _ X) as [R1 R2]. destruct (bStk0 _ _ _ R1) as (A1 & A2 & A3 & A4). rewrite upd_other by exact R2. now repeat split. }
        { rewrite K in bNd0. exact bNd0. }
    + split; [|reflexivity]. set (n := nxt s). destruct (iNew _ _ I n (le_n _)) as [FN RN].
      assert (ON : o1 <> n) by (pose proof (bOld _ _ _ B _ _ S1); unfold n; lia).
      assert (EX : ext (wss s) (upd (wss s) t2 (Some n))) by now apply ext_upd.
      apply (build_inv t s _ k u v); trivial; fields.
      * lia.
      * intros w W. destruct (iNew _ _ I w) as [A1 A2]; [lia|]. split; [exact A1|]. rewrite upd_other by (unfold n in ON; pose proof (bOld _ _ _ B _ _ S1); lia). exact A2.
      * intros w W. split; [exact W|]. rewrite upd_other by congruence. reflexivity.
      * destruct B. split; fields; fold n.
        { intros x y X. now apply EX, bExt0. }
        { now apply EX. }
        { intros x y X. spl x t2; [injection X as <-; unfold n; lia|]. specialize (bOld0 x y X). lia. }
        { intros x x' y X X'. spl x t2; spl x' t2; trivial.
          - injection X as <-. apply bOld0 in X'. unfold n in X'. lia.
          - injection X' as <-. apply bOld0 in X. unfold n in X. lia.
          - now apply (bInj0 x x' y). }
        { intros x y X. cbn. spl x t2; [injection X as <-; right; now left|]. destruct (bAll0 x y X) as [A|A]; [|right; right; rewrite K in A; exact A].
          left. apply (whole_mono s _ (wss s)); [exact EX| |exact A]. intro W. cbn. split; [exact W|]. rewrite upd_other by congruence. reflexivity. }
        { intros x y q [X|[X|X]].
          - injection X as <- <- <-. split; [now rewrite upd_same|]. split; [exact FN|]. split; [exact PA|]. exists []. split; [reflexivity|]. rewrite upd_other by congruence. rewrite RN. constructor.
          - injection X as <- <- <-. split; [now apply EX|]. split; [exact S2|]. split; [exact S3|]. exists (pre ++ [Need t2]). split; [exact S4'|]. rewrite upd_same. apply Forall2_app; [now apply (links_ext (wss s))|]. constructor; [cbn; now rewrite upd_same|constructor].
          - destruct (RS _ _ _ X) as [R1 R2]. destruct (bStk0 _ _ _ R1) as (A1 & A2 & A3 & pr & A4 & A5). rewrite (upd_other _ o1 _ y) by exact R2. split; [now apply EX|]. split; [exact A2|]. split; [exact A3|]. exists pr. split; [exact A4|now apply (links_ext (wss s))]. }
        { cbn. constructor; [|rewrite K in bNd0; exact bNd0]. intros [X|X]; [unfold fobj in X; cbn in X; congruence|]. apply in_map_iff in X. destruct X as ([[x y] q] & X1 & X2). unfold fobj in X1. cbn in X1. subst y.
          destruct (RS _ _ _ X2) as [R1 _]. destruct (bStk0 _ _ _ R1) as (A1 & _). apply bOld0 in A1. unfold n in A1. lia. }
  - split; [|reflexivity]. cbn [ok snd]. rewrite <- (app_nil_r t). change (w_pc s k (PFail u)) with (w_pc (w_lock s (lock s)) k (PFail u)). apply pc_inv; trivial; try discriminate; try (intros; contradiction).
    + intro j. rewrite (iLock _ _ I). spl j k; [rewrite E; cbn; tauto|tauto].
    + intros x X. injection X as <-. intro SP. apply (SP t1 S3). rewrite S4. apply in_or_app. right. now left.
    + intros j x X. rewrite app_nil_r in *. pose proof (iCall _ _ I j x X) as C. spl j k; [|exact C]. rewrite E in C. exact C.
Qed.
Lemma step_inv t s e : Inv t s -> Inv (t ++ fst (step prog s e)) (snd (step prog s e)).
Proof.
  intro I. assert (ID : Inv (t ++ []) s) by now rewrite app_nil_r.
  destruct e as [k u|k]; cbn [step].
  - destruct (pcs s k) eqn:E; try exact ID. cbn [fst snd]. change (w_pc s k (PLoad u)) with (w_pc (w_lock s (lock s)) k (PLoad u)). apply pc_inv; trivial; try discriminate.
    + intro j. rewrite (iLock _ _ I). spl j k; [rewrite E; cbn; tauto|tauto].
    + intros j x v [X|[]]. discriminate.
    + intros j x [X|[]]. discriminate.
    + intros j x X. apply in_app_or in X. destruct X as [X|[X|[]]].
      * pose proof (iCall _ _ I j x X) as C. spl j k; [now apply (iNone _ _ I k E) in X|]. destruct C as [C|[[v C]|C]]; [now left|right; left; exists v; apply in_or_app; now left|right; right; apply in_or_app; now left].
      * injection X as <- <-. left. now rewrite upd_same.
    + intros j x [X|[]]. now injection X as <- _.
  - assert (G : forall c o, (forall j u, ~ In (OCall j u) o) -> (match c with PNew => False | _ => True end) ->
      (match pcs s k with PLoad u | PLock u | PCheck u | PCopy u | PBuild u _ | PFail u | PUnl u _ =>
         match c with PLoad u' | PLock u' | PCheck u' | PCopy u' | PBuild u' _ | PFail u' | PUnl u' _ => u' = u | PRet => exists v, In (ORet k u v) o | PPanic => In (OPanic k u) o | _ => False end | _ => False end) ->
      forall j x, In (OCall j x) (t ++ o) -> (match upd (pcs s) k c j with PLoad u' | PLock u' | PCheck u' | PCopy u' | PBuild u' _ | PFail u' | PUnl u' _ => u' = x | _ => False end) \/ (exists v, In (ORet j x v) (t ++ o)) \/ In (OPanic j x) (t ++ o)).
    { intros c o NC NN H j x X. apply in_app_or in X. destruct X as [X|X]; [|now apply NC in X]. pose proof (iCall _ _ I j x X) as C.
      destruct C as [C|[[v C]|C]]; [|right; left; exists v; apply in_or_app; now left|right; right; apply in_or_app; now left]. spl j k; [|now left].
      destruct (pcs s k); try destruct C; destruct c; try destruct H; try (now left); try (right; left; eexists; apply in_or_app; right; eassumption); right; right; apply in_or_app; now right. }
    assert (U : forall j, mid (pcs s k) -> mid (pcs s j) -> j = k) by (intros j M1 M2; apply (iLock _ _ I) in M1, M2; congruence).
    destruct (pcs s k) as [|u|u|u|u|u v|u|u v| |] eqn:E; try exact ID.
    + destruct (ws s u) as [o|] eqn:W; cbn [fst snd ok].
      * change (w_pc s k PRet) with (w_pc (w_lock s (lock s)) k PRet). apply pc_inv; trivial; try discriminate.
        -- intro j. rewrite (iLock _ _ I). spl j k; [rewrite E; cbn; tauto|tauto].
        -- intros j x v [X|[]]. now injection X as <- <- <-.
        -- intros j x [X|[]]. discriminate.
        -- apply (G PRet); trivial; [intros j x [X|[]]; discriminate|]. exists o. now left.
        -- intros j x [X|[]]. discriminate.
      * change (w_pc s k (PLock u)) with (w_pc (w_lock s (lock s)) k (PLock u)). apply pc_inv; trivial; try discriminate; try (intros; contradiction).
        -- intro j. rewrite (iLock _ _ I). spl j k; [rewrite E; cbn; tauto|tauto].
        -- apply (G (PLock u)); trivial. intros j x [].
    + destruct (lock s) as [j|] eqn:L; cbn [fst snd ok]; [exact ID|]. apply pc_inv; trivial; try discriminate; try (intros; contradiction).
      * intro j. spl j k; [cbn; tauto|]. split; [congruence|]. intro M. apply (iLock _ _ I) in M. congruence.
      * apply (G (PCheck u)); trivial. intros j x [].
    + destruct (ws s u) as [o|] eqn:W; cbn [fst snd ok].
      * change (w_pc s k (PUnl u o)) with (w_pc (w_lock s (lock s)) k (PUnl u o)). apply pc_inv; trivial; try discriminate; try (intros; contradiction).
        -- intro j. rewrite (iLock _ _ I). spl j k; [rewrite E; cbn; tauto|tauto].
        -- intros x v X. now injection X as <- <-.
        -- apply (G (PUnl u o)); trivial. intros j x [].
      * change (w_pc s k (PCopy u)) with (w_pc (w_lock s (lock s)) k (PCopy u)). apply pc_inv; trivial; try discriminate; try (intros; contradiction).
        -- intro j. rewrite (iLock _ _ I). spl j k; [rewrite E; cbn; tauto|tauto].
        -- intros x X. now injection X as <-.
        -- apply (G (PCopy u)); trivial. intros j x [].
    + (* copy *) cbn [fst snd ok]. pose proof (iCheck _ _ I k u E) as W. set (n := nxt s). set (s1 := push prog s (ws s) u (refs s) []).
      destruct (iNew _ _ I n (le_n _)) as [FN RN]. assert (EX : ext (ws s) (upd (ws s) u (Some n))) by now apply ext_upd.
      assert (I1 : Inv t s1).
      { assert (U' : forall j, mid (pcs s j) -> j = k) by (intros j M; apply U; [exact Logic.I|exact M]). destruct I. unfold s1. split; fields; trivial.
        - intros x y X. specialize (iOld0 x y X). lia.
        - intros v V. apply iNew0. lia.
        - intros j x y X. exfalso. assert (j = k) by (apply U'; now rewrite X). subst j. congruence. }
      change (push prog s (ws s) u (refs s) []) with s1. change (w_pc s1 k (PBuild u n)) with (w_pc (w_lock s1 (lock s1)) k (PBuild u n)). apply pc_inv; trivial; try discriminate; try (intros; contradiction).
      * intro j. rewrite (iLock _ _ I1). change (pcs s1) with (pcs s). spl j k; [rewrite E; cbn; tauto|tauto].
      * intros x v X. injection X as <- <-. destruct I. unfold s1. split; fields; fold n.
        -- exact EX.
        -- now rewrite upd_same.
        -- intros x y X. spl x u; [injection X as <-; unfold n; lia|]. specialize (iOld0 x y X). lia.
        -- intros x x' y X X'. spl x u; spl x' u; trivial.
           ++ injection X as <-. apply iOld0 in X'. unfold n in X'. lia.
           ++ injection X' as <-. apply iOld0 in X. unfold n in X. lia.
           ++ now apply (iInj0 x x' y).
        -- intros x y X. cbn. spl x u; [injection X as <-; right; now left|]. left. apply (whole_mono s _ (ws s)); [exact EX| |now apply iWs0]. intro F. cbn. now split.
        -- intros x y q [X|[]]. injection X as <- <- <-. split; [now rewrite upd_same|]. split; [exact FN|]. split; [apply rt_refl|]. exists []. split; [reflexivity|]. rewrite RN. constructor.
        -- cbn. repeat constructor. intros [].
      * change (pcs s1) with (pcs s). apply (G (PBuild u n)); trivial. intros j x [].
    + destruct (bld_build t s k u v I E) as [A B]. rewrite B, app_nil_r. exact A.
    + cbn [fst snd]. apply pc_inv; trivial; try discriminate.
      * intro j. spl j k; [cbn; split; [discriminate|tauto]|]. split; [discriminate|]. intro M. apply U in M; [congruence|exact Logic.I].
      * intros j x v [X|[]]. discriminate.
      * intros j x [X|[]]. injection X as <- <-. now apply (iFail _ _ I k).
      * apply (G PPanic); trivial; [intros j x [X|[]]; discriminate|]. now left.
      * intros j x [X|[]]. discriminate.
    + cbn [fst snd]. apply pc_inv; trivial; try discriminate.
      * intro j. spl j k; [cbn; split; [discriminate|tauto]|]. split; [discriminate|]. intro M. apply U in M; [congruence|exact Logic.I].
      * intros j x y [X|[]]. injection X as <- <- <-. now apply (iUnl _ _ I k).
      * intros j x [X|[]]. discriminate.
      * apply (G PRet); trivial; [intros j x [X|[]]; discriminate|]. exists v. now left.
      * intros j x [X|[]]. discriminate.
Qed.
Lemma run_inv es : forall t s t' s', Inv t s -> run prog s es = (t', s') -> Inv (t ++ t') s'.
Proof.
  induction es as [|e es IH]; intros t s t' s' I E; cbn [run] in E; [injection E as <- <-; now rewrite app_nil_r|].
  pose proof (step_inv t s e I) as J. destruct (step prog s e) as [o s1]. cbn in J. destruct (run prog s1 es) as [o2 s2] eqn:R. injection E as <- <-. rewrite app_assoc. now apply (IH _ s1).
Qed.
Lemma start_inv es t s : start prog es = (t, s) -> Inv t s.
Proof. intro E. apply (run_inv es [] s_init t s init_inv E). Qed.
(** ** Quiescent states *)
Lemma stk_neq (f : frame) l : f :: l <> l.
Proof. intro E. apply (f_equal (@length _)) in E. cbn in E. lia. Qed.
Lemma quiet_ends t s : Inv t s -> quiet prog s -> forall k, match pcs s k with PNew | PRet | PPanic => True | _ => False end.
Proof.
  intros I Q. assert (M : forall k, ~ mid (pcs s k)).
  { intros k M. specialize (Q (Go k) Logic.I). cbn [step] in Q. destruct (pcs s k) as [|u|u|u|u|u v|u|u v| |] eqn:E; try destruct M.
    - destruct (ws s u); injection Q as Q; apply (f_equal (fun x => pcs x k)) in Q; fields; rewrite upd_same, E in Q; discriminate.
    - injection Q as Q. apply (f_equal (fun x => pcs x k)) in Q. fields. rewrite upd_same, E in Q. discriminate.
    - unfold step_build in Q. destruct (stk s) as [|[[t1 o1] [|[t2|] p]] rest] eqn:K.
      + injection Q as Q. apply (f_equal (fun x => pcs x k)) in Q. fields. rewrite upd_same, E in Q. discriminate.
      + injection Q as Q. apply (f_equal stk) in Q. fields. rewrite K in Q. symmetry in Q. now apply stk_neq in Q.
      + destruct (wss s t2); injection Q as Q.
        * apply (f_equal stk) in Q. fields. rewrite K in Q. injection Q as Q. apply (f_equal (@length _)) in Q. cbn in Q. lia.
        * apply (f_equal nxt) in Q. fields. lia.
      + injection Q as Q. apply (f_equal (fun x => pcs x k)) in Q. fields. rewrite upd_same, E in Q. discriminate.
    - discriminate.
    - discriminate. }
  intro k. pose proof (M k) as Mk. specialize (Q (Go k) Logic.I). cbn [step] in Q. destruct (pcs s k) as [|u|u|u|u|u v|u|u v| |] eqn:E; trivial; try (now apply Mk).
  - destruct (ws s u); [discriminate|]. injection Q as Q. apply (f_equal (fun x => pcs x k)) in Q. fields. rewrite upd_same, E in Q. discriminate.
  - destruct (lock s) as [j|] eqn:L; [|injection Q as Q; apply (f_equal (fun x => pcs x k)) in Q; fields; rewrite upd_same, E in Q; discriminate]. apply (iLock _ _ I) in L. now apply M in L.
Qed.
(** ** Ranking *)
Section Finite.
Variable U : list nat.
Hypothesis closed : forall t u, In t U -> part prog t u -> In u U.
Definition cost (u : nat) : nat := length (prog u) + 2.
Fixpoint missing (m : nat -> option nat) (l : list nat) : nat :=
  match l with [] => 0 | u :: l => (match m u with None => cost u | Some _ => 0 end) + missing m l end.
Definition W : nat := missing (fun _ => None) U.
Fixpoint stk_rank (l : list frame) : nat := match l with [] => 0 | f :: l => length (snd f) + 1 + stk_rank l end.
Definition weight (c : pc) : nat :=
  match c with PNew | PRet | PPanic => 0 | PLoad _ => W + 8 | PLock _ => W + 7 | PCheck _ => W + 6 | PCopy _ => W + 5 | PBuild _ _ => 3 | PFail _ => 1 | PUnl _ _ => 1 end.
Fixpoint sum (f : nat -> nat) (n : nat) : nat := match n with 0 => 0 | S n => f n + sum f n end.
Definition rank (B : nat) (s : st) : nat := sum (fun k => weight (pcs s k)) B + missing (wss s) U + stk_rank (stk s).
Definition uses (s : st) : Prop := (forall k, match pcs s k with PLoad u | PLock u | PCheck u | PCopy u | PBuild u _ => In u U | _ => True end) /\ (forall u v p, In (u, v, p) (stk s) -> In u U /\ exists pre, prog u = pre ++ p).
Definition below (B : nat) (s : st) : Prop := forall k, B <= k -> pcs s k = PNew.
Lemma missing_le m l : missing m l <= missing (fun _ => None) l.
Proof. induction l as [|u l IH]; cbn; [lia|]. destruct (m u); lia. Qed.
Lemma missing_upd m u o l : m u = None -> missing (upd m u (Some o)) l + (if in_dec Nat.eq_dec u l then cost u else 0) <= missing m l.
Proof.
  intro N. induction l as [|x l IH]; [cbn; lia|]. cbn [missing]. destruct (in_dec Nat.eq_dec u (x :: l)) as [H|H].
  - destruct (Nat.eq_dec x u) as [->|NE]; [rewrite upd_same, N; destruct (in_dec Nat.eq_dec u l); lia|]. rewrite upd_other by assumption. destruct (in_dec Nat.eq_dec u l) as [H'|H']; [lia|]. destruct H; [congruence|contradiction].
  - destruct (in_dec Nat.eq_dec u l) as [H'|H']; [exfalso; apply H; now right|]. rewrite upd_other; [lia|]. intros ->. apply H. now left.
Qed.
Lemma sum_upd f k c B : k < B -> sum (fun j => weight (upd f k c j)) B + weight (f k) = sum (fun j => weight (f j)) B + weight c.
Proof.
  intro L. induction B as [|B IH]; [lia|]. cbn [sum]. destruct (Nat.eq_dec B k) as [->|N].
  - rewrite upd_same. assert (E : sum (fun j => weight (upd f k c j)) k = sum (fun j => weight (f j)) k); [|lia].
    clear. assert (G : forall n, n <= k -> sum (fun j => weight (upd f k c j)) n = sum (fun j => weight (f j)) n); [|now apply G]. induction n as [|n IH]; intro L; [reflexivity|]. cbn [sum]. rewrite upd_other by lia. rewrite IH; lia.
  - rewrite upd_other by assumption. specialize (IH ltac:(lia)). lia.
Qed.
Lemma rank_pc B s k c lk : below B s -> pcs s k <> PNew -> weight c < weight (pcs s k) -> below B (w_pc (w_lock s lk) k c) /\ rank B (w_pc (w_lock s lk) k c) < rank B s.
Proof.
  intros HB N L. assert (KB : k < B) by (destruct (Nat.lt_ge_cases k B) as [H|H]; [exact H|]; apply HB in H; congruence). split.
  - intros j J. fields. rewrite upd_other by lia. now apply HB.
  - unfold rank. fields. pose proof (sum_upd (pcs s) k c B KB). lia.
Qed.
Lemma step_rank B s e : below B s -> uses s -> (forall k u, pcs s k = PCopy u -> ws s u = None) -> internal e -> step prog s e <> ([], s) ->
  below B (snd (step prog s e)) /\ uses (snd (step prog s e)) /\ rank B (snd (step prog s e)) < rank B s.
Proof.
  intros HB [U1 U2] HC IN NE. destruct e as [k u|k]; [destruct IN|]. cbn [step] in *.
  assert (G : forall c lk, pcs s k <> PNew -> weight c < weight (pcs s k) -> (match c with PLoad u | PLock u | PCheck u | PCopy u | PBuild u _ => In u U | _ => True end) ->
    below B (w_pc (w_lock s lk) k c) /\ uses (w_pc (w_lock s lk) k c) /\ rank B (w_pc (w_lock s lk) k c) < rank B s).
  { intros c lk N L H. destruct (rank_pc B s k c lk HB N L) as [A1 A2]. split; [exact A1|]. split; [|exact A2]. split; fields; [|exact U2]. intro j. spl j k; [exact H|apply U1]. }
  pose proof (U1 k) as Uk. destruct (pcs s k) as [|u|u|u|u|u v|u|u v| |] eqn:E; try (now destruct NE).
  - destruct (ws s u); cbn [fst snd ok] in *; apply (G _ (lock s)); cbn; trivial; try lia; discriminate.
  - destruct (lock s) eqn:L; [now destruct NE|]. cbn [fst snd ok] in *. apply (G _ (Some k)); cbn; trivial; try lia; discriminate.
  - destruct (ws s u); cbn [fst snd ok] in *; apply (G _ (lock s)); cbn; trivial; try lia; discriminate.
  - cbn [fst snd ok]. assert (KB : k < B) by (destruct (Nat.lt_ge_cases k B) as [H|H]; [exact H|]; apply HB in H; congruence).
    split; [intros j J; fields; rewrite upd_other by lia; now apply HB|]. split; [split; fields|].
    + intro j. spl j k; [exact Uk|apply U1].
    + intros x y p [X|[]]. injection X as <- <- <-. split; [exact Uk|]. now exists [].
    + unfold rank. fields. pose proof (sum_upd (pcs s) k (PBuild u (nxt s)) B KB) as S. rewrite E in S. cbn [weight] in S. pose proof (missing_upd (ws s) u (nxt s) U (HC k u E)) as M. pose proof (missing_le (ws s) U) as ML. fold W in ML.
      destruct (in_dec Nat.eq_dec u U) as [_|C]; [|now destruct C]. unfold cost in M. cbn [stk_rank snd] in *. lia.
  - unfold step_build in *. destruct (stk s) as [|[[t1 o1] [|[t2|] p]] rest] eqn:K.
    + cbn [fst snd ok]. assert (KB : k < B) by (destruct (Nat.lt_ge_cases k B) as [H|H]; [exact H|]; apply HB in H; congruence).
      split; [intros j J; fields; rewrite upd_other by lia; now apply HB|]. split; [split; fields|].
      * intro j. spl j k; [exact Logic.I|apply U1].
      * intros x y p [].
      * unfold rank. fields. pose proof (sum_upd (pcs s) k (PUnl u v) B KB) as S. rewrite E in S. cbn [weight] in S. rewrite K. cbn [stk_rank]. lia.
    + cbn [fst snd ok]. split; [exact HB|]. split; [split; fields; [exact U1|]|].
      * intros x y q X. apply (U2 x y q). now right.
      * unfold rank. fields. rewrite K. cbn [stk_rank snd length]. lia.
    + destruct (U2 t1 o1 (Need t2 :: p) (or_introl eq_refl)) as [T1 [pre T2]]. assert (T3 : In t2 U) by (apply (closed t1 t2 T1); unfold part; rewrite T2; apply in_or_app; right; now left).
      assert (T4 : exists pr, prog t1 = pr ++ p) by (exists (pre ++ [Need t2]); rewrite T2, <- app_assoc; reflexivity).
      destruct (wss s t2) as [o2|] eqn:N2; cbn [fst snd ok].
      * split; [exact HB|]. split; [split; fields; [exact U1|]|].
        -- intros x y q [X|X]; [injection X as <- <- <-; now split|]. apply (U2 x y q). now right.
        -- unfold rank. fields. rewrite K. cbn [stk_rank snd length]. lia.
      * split; [exact HB|]. split; [split; fields; [exact U1|]|].
        -- intros x y q [X|[X|X]]; [injection X as <- <- <-; split; [exact T3|now exists []]|injection X as <- <- <-; now split|]. apply (U2 x y q). now right.
        -- unfold rank. fields. rewrite K. pose proof (missing_upd (wss s) t2 (nxt s) U N2) as M. destruct (in_dec Nat.eq_dec t2 U) as [_|C]; [|now destruct C]. unfold cost in M. cbn [stk_rank snd length]. lia.
    + cbn [fst snd ok]. apply (G (PFail u) (lock s)); cbn; trivial; try lia. discriminate.
  - cbn [fst snd]. apply (G PPanic None); cbn; trivial; try lia. discriminate.
  - cbn [fst snd]. apply (G PRet None); cbn; trivial; try lia. discriminate.
Qed.
Lemma productive_bound B es : forall t s, Inv t s -> below B s -> uses s -> productive prog s es -> length es <= rank B s.
Proof.
  induction es as [|e es IH]; intros t s I HB HU P; cbn; [lia|]. destruct P as (A & C & D).
  destruct (step_rank B s e HB HU) as (X & Y & Z); trivial.
  - intros k u E. apply (iCheck _ _ I k). tauto.
  - specialize (IH _ _ (step_inv t s e I) X Y D). lia.
Qed.
Lemma run_below es : forall s t s' B, below B s -> uses s -> (forall k u, In (Call k u) es -> In u U) -> run prog s es = (t, s') -> exists B', below B' s' /\ uses s'.
Proof.
  induction es as [|e es IH]; intros s t s' B HB HU HC E; cbn [run] in E; [injection E as <- <-; now exists B|].
  destruct (step prog s e) as [o s1] eqn:S. destruct (run prog s1 es) as [o2 s2] eqn:R. injection E as <- <-.
  assert (G : exists B', below B' s1 /\ uses s1).
  { destruct e as [k u|k]; cbn [step] in S.
    - destruct (pcs s k) eqn:P; try (injection S as <- <-; now exists B). injection S as <- <-. exists (Nat.max B (Datatypes.S k)). split.
      + intros j J. fields. rewrite upd_other by lia. apply HB. lia.
      + destruct HU as [U1 U2]. split; fields; [|exact U2]. intro j. spl j k; [apply (HC k); now left|apply U1].
    - exists B. assert (KB : pcs s k <> PNew -> k < B) by (intro N; destruct (Nat.lt_ge_cases k B) as [H|H]; [exact H|]; apply HB in H; congruence).
      assert (BB : forall c, pcs s k <> PNew -> forall j, B <= j -> upd (pcs s) k c j = PNew) by (intros c N j J; specialize (KB N); rewrite upd_other by lia; now apply HB).
      destruct HU as [U1 U2]. pose proof (U1 k) as Uk.
      assert (UU : forall c, (match c with PLoad u | PLock u | PCheck u | PCopy u | PBuild u _ => In u U | _ => True end) -> forall j, match upd (pcs s) k c j with PLoad u | PLock u | PCheck u | PCopy u | PBuild u _ => In u U | _ => True end) by (intros c Hc j; spl j k; [exact Hc|apply U1]).
      destruct (pcs s k) as [|u|u|u|u|u v|u|u v| |] eqn:P; try (injection S as <- <-; now split).
      + assert (N : PLoad u <> PNew) by discriminate. destruct (ws s u); injection S as <- <-; (split; [intros j J; fields; now apply BB|split; fields; [apply UU; trivial|exact U2]]).
      + assert (N : PLock u <> PNew) by discriminate. destruct (lock s); injection S as <- <-; [now split|]. split; [intros j J; fields; now apply BB|split; fields; [apply UU; trivial|exact U2]].
      + assert (N : PCheck u <> PNew) by discriminate. destruct (ws s u); injection S as <- <-; (split; [intros j J; fields; now apply BB|split; fields; [apply UU; trivial|exact U2]]).
      + assert (N : PCopy u <> PNew) by discriminate. injection S as <- <-. split; [intros j J; fields; now apply BB|split; fields; [apply UU; trivial|]]. intros x y p [X|[]]. injection X as <- <- <-. split; [exact Uk|now exists []].
      + assert (N : PBuild u v <> PNew) by discriminate. unfold step_build in S. destruct (stk s) as [|[[t1 o1] [|[t2|] p]] rest] eqn:K.
        * injection S as <- <-. split; [intros j J; fields; now apply BB|split; fields; [apply UU; trivial|intros x y p []]].
        * injection S as <- <-. split; [exact HB|]. split; fields; [exact U1|]. intros x y q X. apply (U2 x y q). now right.
        * destruct (U2 t1 o1 (Need t2 :: p) (or_introl eq_refl)) as [T1 [pre T2]]. assert (T3 : In t2 U) by (apply (closed t1 t2 T1); unfold part; rewrite T2; apply in_or_app; right; now left).
          assert (T4 : exists pr, prog t1 = pr ++ p) by (exists (pre ++ [Need t2]); rewrite T2, <- app_assoc; reflexivity).
          destruct (wss s t2); injection S as <- <-; (split; [exact HB|]); (split; fields; [exact U1|]).
          -- intros x y q [X|X]; [injection X as <- <- <-; now split|]. apply (U2 x y q). now right.
          -- intros x y q [X|[X|X]]; [injection X as <- <- <-; split; [exact T3|now exists []]|injection X as <- <- <-; now split|]. apply (U2 x y q). now right.
        * injection S as <- <-. split; [intros j J; fields; now apply BB|split; fields; [apply UU; trivial|]]. rewrite K. exact U2.
      + assert (N : PFail u <> PNew) by discriminate. injection S as <- <-. split; [intros j J; fields; now apply BB|split; fields; [apply UU; trivial|exact U2]].
      + assert (N : PUnl u v <> PNew) by discriminate. injection S as <- <-. split; [intros j J; fields; now apply BB|split; fields; [apply UU; trivial|exact U2]]. }
  destruct G as (B' & G1 & G2). apply (IH s1 o2 s2 B'); trivial. intros k u H. apply (HC k). now right.
Qed.
End Finite.
End Types.
