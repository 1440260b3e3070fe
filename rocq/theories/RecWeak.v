(** What every history leaves of the codec of a type, for types that contain themselves too: Fill computed it from the sizes its
    parts have, or from -1 for parts that contain the type and were not ready yet. *)
From Coq Require Import ZArith List Bool Arith Lia Relations.
Import ListNotations.
From Verif Require Import RegModel RegSpec RegProofs FillModel FillProofs.
Open Scope nat_scope.

Section Rec.
Variable prog : nat -> list instr.
Variable info : Type.
Variable pend : nat -> info.
Variable fin : nat -> list info -> info.
Variable sz : info -> Z.
Hypothesis pend_neg : forall t, sz (pend t) = (-1)%Z.
Definition whistory (es : list ev) : list obs * ist info := istart prog info pend fin es.
Definition wgiven (es : list ev) (t : nat) : Prop := exists k o, In (ORet k t o) (fst (whistory es)).
Definition wtable (x : ist info) (t : nat) : info := match RegModel.ws (fst x) t with Some o => snd x o | None => pend t end.
Definition wafter (es : list ev) : nat -> info := wtable (snd (whistory es)).
(** the sizes of the parts, or -1 *)
Definition sound (g : nat -> info) (t : nat) : Prop :=
  exists is, g t = fin t is /\ Forall2 (fun u i => i = g u \/ (sz i = (-1)%Z /\ parts prog u t)) (needs prog t) is.

Definition from (s : st) (f : nat -> info) (m : nat -> option nat) (t o : nat) : Prop :=
  exists is, f o = fin t is /\
  Forall2 (fun u i => exists o', m u = Some o' /\ ((full s o' = true /\ i = f o') \/ (sz i = (-1)%Z /\ parts prog u t))) (needs prog t) is.
Record WInv (s : st) (f : nat -> info) : Prop := mkWInv {
  wWs : forall u o, ws s u = Some o -> from s f (ws s) u o;
  wPend : forall k t o, pcs s k = PBuild t o -> forall u v, wss s u = Some v -> full s v = false -> sz (f v) = (-1)%Z;
  wBld : forall k t o, pcs s k = PBuild t o -> forall u v, wss s u = Some v -> full s v = true -> from s f (wss s) u v }.
Lemma winit : WInv s_init (fun _ => pend 0).
Proof. split; cbn; discriminate. Qed.
Lemma Forall2_imp {A B} (P Q : A -> B -> Prop) l l' : (forall a b, P a b -> Q a b) -> Forall2 P l l' -> Forall2 Q l l'.
Proof. intros H F. induction F; constructor; auto. Qed.
(** objects that are full keep their values *)
Lemma from_mono s f m s' f' m' t o : (forall v, full s v = true -> full s' v = true /\ f' v = f v) -> (forall u v, m u = Some v -> m' u = Some v) ->
  full s o = true -> from s f m t o -> from s' f' m' t o.
Proof.
  intros K M O (is & E & F). exists is. split; [destruct (K o O) as [_ K']; congruence|]. apply (Forall2_imp _ _ _ _ (fun u i H => H)). revert F. apply Forall2_imp.
  intros u i (o' & A & [[B C]|B]); exists o'; (split; [now apply M|]); [left|now right]. destruct (K o' B) as [K1 K2]. split; [exact K1|now rewrite K2].
Qed.
Lemma wstep t s f e : IInv prog t s -> WInv s f -> WInv (snd (step prog s e)) (fill info pend fin s f e).
Proof.
  intros I V. destruct I as [J1 J2]. destruct V as [V1 V2 V3].
  assert (ONE : forall k u v, pcs s k = PBuild u v -> forall j, mid (pcs s j) -> j = k).
  { intros k u v E j M. apply (iLock _ _ _ J1) in M. assert (M' : mid (pcs s k)) by now rewrite E. apply (iLock _ _ _ J1) in M'. congruence. }
  assert (WF : forall u o, ws s u = Some o -> full s o = true) by (intros u o W; now destruct (iWs _ _ _ J1 u o W)).
  assert (OLD : forall v, full s v = true -> v < nxt s).
  { intros v F. destruct (Nat.lt_ge_cases v (nxt s)) as [L|L]; [exact L|]. destruct (iNew _ _ _ J1 v L) as [N _]. congruence. }
  assert (PC : forall s' c k, (forall j, j <> k -> pcs s' j = pcs s j) -> pcs s' k = c -> (forall u v, c <> PBuild u v) -> ws s' = ws s -> wss s' = wss s -> full s' = full s -> WInv s' f).
  { intros s' c k P1 P2 P3 P4 P5 P6.
    assert (X : forall m u o, from s f m u o -> from s' f m u o) by (intros m u o (is & A & B); exists is; split; [exact A|]; revert B; apply Forall2_imp; now rewrite P6).
    split; rewrite ?P4, ?P5, ?P6.
    - intros u o W. now apply X, V1.
    - intros j u v E. destruct (Nat.eq_dec j k) as [->|N]; [rewrite P2 in E; now apply P3 in E|]. rewrite P1 in E by exact N. now apply (V2 j u v).
    - intros j u v E u' v' W F. destruct (Nat.eq_dec j k) as [->|N]; [rewrite P2 in E; now apply P3 in E|]. rewrite P1 in E by exact N. now apply X, (V3 j u v). }
  assert (PC' : forall k c lk, (forall u v, c <> PBuild u v) -> WInv (w_pc (w_lock s lk) k c) f).
  { intros k c lk C. apply (PC _ c k); fields; trivial; [intros j N; now rewrite upd_other|now rewrite upd_same]. }
  assert (ID : WInv s f) by now split.
  assert (WL : forall k c, w_pc s k c = w_pc (w_lock s (lock s)) k c) by reflexivity.
  destruct e as [k u|k]; cbn [step fill] in *.
  - destruct (pcs s k) eqn:E; try exact ID. fields. rewrite WL in *. apply PC'; discriminate.
  - destruct (pcs s k) as [|u|u|u|u|u v|u|u v| |] eqn:E; try exact ID.
    + destruct (ws s u); fields; rewrite WL in *; (apply PC'; discriminate).
    + destruct (lock s); [exact ID|]. fields. apply PC'; discriminate.
    + destruct (ws s u); fields; rewrite WL in *; (apply PC'; discriminate).
    + (* PCopy *) fields. pose proof (iCheck _ _ _ J1 k u E) as NU.
      assert (K : forall s', full s' = full s -> forall v, full s v = true -> full s' v = true /\ upd f (nxt s) (pend u) v = f v).
      { intros s' FE v F. rewrite FE. split; [exact F|]. apply OLD in F. now rewrite upd_other by lia. }
      split; fields.
      * intros w o W. apply (from_mono s f (ws s)); trivial; [now apply K|now apply (WF w)|now apply V1].
      * intros j x y X w o W F. spl w u; [injection W as <-; rewrite upd_same; apply pend_neg|]. apply WF in W. congruence.
      * intros j x y X w o W F. spl w u; [injection W as <-; apply OLD in F; lia|].
        apply (from_mono s f (ws s)); trivial; [now apply K| |now apply V1]. intros w' v W'. rewrite upd_other; [exact W'|]. intros ->. congruence.
    + (* PBuild *) pose proof (iBld _ _ _ J1 k u v E) as B. unfold step_build in *. destruct (stk s) as [|[[t1 o1] [|[t2|] p]] rest] eqn:K; fields.
      * (* done *)
        assert (FU : forall w o, wss s w = Some o -> full s o = true).
        { intros w o W. destruct (bAll _ _ _ _ B w o W) as [[F _]|X]; [exact F|]. rewrite K in X. destruct X. }
        split; fields.
        -- intros w o W. apply (from_mono s f (wss s)); trivial; [now split|now apply (FU w)|]. apply (V3 k u v E); trivial. now apply (FU w).
        -- intros j x y X. spl j k; [discriminate|]. exfalso. assert (j = k) by (apply (ONE k u v E); now rewrite X). congruence.
        -- intros j x y X. spl j k; [discriminate|]. exfalso. assert (j = k) by (apply (ONE k u v E); now rewrite X). congruence.
      * (* the end of Fill *)
        assert (F1 : In (t1, o1, []) (stk s)) by (rewrite K; now left). destruct (bStk _ _ _ _ B _ _ _ F1) as (S1 & S2 & S3 & pre & S4 & S5). rewrite app_nil_r in S4. subst pre.
        pose proof (links_needs _ _ _ S5) as LN.
        assert (KP : forall s', full s' = upd (full s) o1 true -> forall w, full s w = true -> full s' w = true /\ upd f o1 (fin t1 (map f (refs s o1))) w = f w).
        { intros s' FE w F. rewrite FE. assert (w <> o1) by congruence. now rewrite !upd_other by assumption. }
        split; fields.
        -- intros w o W. apply (from_mono s f (ws s)); trivial; [now apply KP|now apply (WF w)|now apply V1].
        -- intros j x y X w o W F. spl o o1; [discriminate|]. assert (j = k) by (apply (ONE k u v E); now rewrite X). subst j. now apply (V2 k u v E w).
        -- intros j x y X w o W F. assert (j = k) by (apply (ONE k u v E); now rewrite X). subst j. spl o o1.
           ++ assert (w = t1) by now apply (bInj _ _ _ _ B w t1 o1). subst w.
              assert (ST : forall w o, wss s w = Some o -> full s o = true \/ parts prog w t1).
              { intros w o W0. destruct (bAll _ _ _ _ B w o W0) as [[F0 _]|X0]; [now left|right].
                apply in_map_iff in X0. destruct X0 as ([[w' o'] q] & X1 & X2). unfold fobj in X1. cbn in X1. subst o'. destruct (bStk _ _ _ _ B _ _ _ X2) as (Y & _).
                assert (w' = w) by now apply (bInj _ _ _ _ B w' w o). subst w'. rewrite K in X2. exact (chain_parts prog _ _ J2 _ X2). }
              exists (map f (refs s o1)). split; [now rewrite upd_same|]. fields. unfold needs. clear - LN V2 E ST S2. revert LN. generalize (refs s o1) as os.
              generalize (flat_map (fun i => match i with Need u => [u] | Fail => [] end) (prog t1)) as us.
              intros us os LN. 
              assert (G : Forall2 (fun w i => exists o', wss s w = Some o' /\ (full s o' = true /\ i = f o' \/ sz i = (-1)%Z /\ parts prog w t1)) us (map f os)).
              { induction LN as [|w o ws' os H F IH]; constructor; [|exact IH]. exists o. split; [exact H|]. destruct (full s o) eqn:FO; [now left|right].
                split; [now apply (V2 k u v E w)|]. destruct (ST w o H) as [C|C]; [congruence|exact C]. }
              revert G. apply Forall2_imp. intros w i (o' & A1 & [[A2 A3]|A2]); exists o'; (split; [exact A1|]); [left|now right].
              assert (o' <> o1) by congruence. now rewrite !upd_other by assumption.
           ++ apply (from_mono s f (wss s)); trivial; [now apply KP|now apply (V3 k u v E w)].
      * (* a part *)
        assert (F1 : In (t1, o1, Need t2 :: p) (stk s)) by (rewrite K; now left). destruct (bStk _ _ _ _ B _ _ _ F1) as (S1 & S2 & S3 & pre & S4 & S5).
        destruct (wss s t2) as [o2|] eqn:N2; fields.
        -- now split.
        -- assert (KP : forall s', full s' = full s -> forall v, full s v = true -> full s' v = true /\ upd f (nxt s) (pend t2) v = f v).
           { intros s' FE w F. rewrite FE. split; [exact F|]. apply OLD in F. now rewrite upd_other by lia. }
           split; fields.
           ++ intros w o W. apply (from_mono s f (ws s)); trivial; [now apply KP|now apply (WF w)|now apply V1].
           ++ intros j x y X w o W F. spl w t2; [injection W as <-; rewrite upd_same; apply pend_neg|]. pose proof (bOld _ _ _ _ B w o W). rewrite upd_other by lia. now apply (V2 k u v E w).
           ++ intros j x y X w o W F. spl w t2; [injection W as <-; apply OLD in F; lia|].
              apply (from_mono s f (wss s)); trivial; [now apply KP| |now apply (V3 k u v E w)]. intros w' v' W'. rewrite upd_other; [exact W'|]. intros ->. congruence.
      * rewrite WL in *. apply PC'; discriminate.
    + fields. apply PC'; discriminate.
    + fields. apply PC'; discriminate.
Qed.
Lemma wrun_inv es : forall t s f t' s' f', IInv prog t s -> WInv s f -> irun prog info pend fin (s, f) es = (t', (s', f')) -> IInv prog (t ++ t') s' /\ WInv s' f'.
Proof.
  induction es as [|e es IH]; intros t s f t' s' f' I V E; cbn [irun istep] in E.
  - injection E as <- <- <-. now rewrite app_nil_r.
  - pose proof (istep_inv _ t s e I) as I1. pose proof (wstep t s f e I V) as V1. destruct (step prog s e) as [o s1]. destruct (irun _ _ _ _ (s1, _) es) as [o2 [s2 f2]] eqn:Q. injection E as <- <- <-. rewrite app_assoc. exact (IH _ s1 _ _ _ _ I1 V1 Q).
Qed.
Lemma whistory_inv es : IInv prog (fst (whistory es)) (fst (snd (whistory es))) /\ WInv (fst (snd (whistory es))) (snd (snd (whistory es))).
Proof. unfold whistory. destruct (istart _ _ _ _ es) as [t [s f]] eqn:E. exact (wrun_inv es [] s_init _ t s f (iinit_inv _) winit E). Qed.
Lemma given_parts es t u : wgiven es t -> parts prog t u -> exists o, ws (fst (snd (whistory es))) u = Some o.
Proof.
  intros (k & o & G) P. pose proof (jInv _ _ _ (proj1 (whistory_inv es))) as J. apply (iRet _ _ _ J) in G. revert o G.
  induction P as [t u P|t|t u w P1 IH1 P2 IH2]; intros o G; [|now exists o|].
  - destruct (iWs _ _ _ J t o G) as [_ L]. unfold part in P. clear - L P. induction L as [|i o' p l H F IH]; [destruct P|]. destruct P as [->|P]; [now exists o'|now apply IH].
  - destruct (IH1 o G) as (o' & G'). now apply (IH2 o').
Qed.
(** the codec of a type that was given, and those of its parts *)
Theorem given_sound es t u : wgiven es t -> parts prog t u -> sound (wafter es) u /\ ~ In Fail (prog u).
Proof.
  intros G P. destruct (given_parts es t u G P) as (o & W). pose proof (jInv _ _ _ (proj1 (whistory_inv es))) as J. destruct (iWs _ _ _ J u o W) as [_ L]. split.
  - destruct (wWs _ _ (proj2 (whistory_inv es)) u o W) as (is & E & F). exists is. unfold wafter, wtable. rewrite W. split; [exact E|]. revert F. apply Forall2_imp.
    intros w i (o' & A & B). rewrite A. destruct B as [[_ B]|B]; [now left|now right].
  - intro N. clear - L N. induction L as [|i o' p l H F IH]; [destruct N|]. destruct N as [->|N]; [exact H|now apply IH].
Qed.
End Rec.
