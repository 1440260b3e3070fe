(** The order in which requests reach the worker, and the size of the backlog. *)
From Coq Require Import List Bool Arith Lia Permutation.
Import ListNotations.
From Verif Require Import BufferModel BufferSpec BufferProofs BufferTrace.

(** what one step may do to the places and to the channel *)
Record moves (s s' : st) (o : list obs) : Prop := {
  mv_done : done s <= done s';
  mv_head : head s <= head s';
  mv_obs : (queued o = [] /\ given o = []) \/ (exists x, queued o = [x] /\ given o = [] /\ pcs s x = PAdd) \/
           (exists x, queued o = [] /\ given o = [x] /\ (direct o = [x] /\ pcs s x = PTry \/ lp s = LSend x /\ done s < done s'));
  mv_ret : forall x, pcs s x = PRet -> pcs s' x = PRet;
  mv_none : forall x, pcs s x <> PNone -> pcs s' x <> PNone;
  mv_headpc : forall x tv, pcs s' x = PHead tv -> pcs s x = PHead tv \/ tv = tail s;
  mv_try : forall x, pcs s' x = PTry -> pcs s x = PTry \/ pcs s x = PHead (head s) }.
Lemma moves_quiet s s' o : queued o = [] -> given o = [] -> pcs s' = pcs s -> done s <= done s' -> head s <= head s' -> moves s s' o.
Proof. intros E1 E2 E3 L1 L2. split; auto; intros x; rewrite E3; auto. Qed.
Lemma moves_pc s s' o r pc : pcs s' = upd (pcs s) r pc -> done s' = done s -> head s' = head s -> pcs s r <> PRet -> pc <> PNone ->
  (forall tv, pc = PHead tv -> tv = tail s) -> (pc = PTry -> pcs s r = PHead (head s)) ->
  ((queued o = [] /\ given o = []) \/ (exists x, queued o = [x] /\ given o = [] /\ pcs s x = PAdd) \/
           (exists x, queued o = [] /\ given o = [x] /\ (direct o = [x] /\ pcs s x = PTry \/ lp s = LSend x /\ done s < done s'))) -> moves s s' o.
Proof.
  intros E1 E2 E3 N1 N2 H T O. split; try lia; auto; intros x; rewrite E1; destruct (upd_dec (pcs s) r pc x) as [[-> ->]|[_ ->]]; auto.
  congruence.
Qed.
Lemma step_moves s t e o s' : BI s t -> step s e = (o, Some s') -> moves s s' o.
Proof.
  intros B. destruct e; cbn [step]; unfold ok.
  - destruct (pcs s r) eqn:P; try (intros [= <- <-]; now apply moves_quiet).
    destruct (rst s r); intros [= <- <-]; try (now apply moves_quiet); (eapply (moves_pc _ _ _ r); [reflexivity|reflexivity|reflexivity|congruence|discriminate|discriminate|discriminate|left; split; reflexivity]).
  - destruct (cp s); intros [= <- <-]; now apply moves_quiet.
  - destruct (rst s r); intros [= <- <-]; now apply moves_quiet.
  - intros [= <- <-]; now apply moves_quiet.
  - destruct (rst s r), (chained s r) as [[]|]; intros [= <- <-]; now apply moves_quiet.
  - destruct (rst s r), (chained s r) as [[]|]; intros [= <- <-]; now apply moves_quiet.
  - destruct (ch s); intros [= <- <-]; now apply moves_quiet.
  - unfold step_push, ok. destruct (pcs s r) eqn:P.
    + intros [= <- <-]; now apply moves_quiet.
    + destruct (rst s r); intros [= <- <-]; (eapply (moves_pc _ _ _ r); [reflexivity|reflexivity|reflexivity|congruence|discriminate|discriminate|discriminate|left; split; reflexivity]).
    + intros [= <- <-]; (eapply (moves_pc _ _ _ r); [reflexivity|reflexivity|reflexivity|congruence|discriminate|congruence|discriminate|left; split; reflexivity]).
    + intros [= <- <-]. eapply (moves_pc _ _ _ r); [reflexivity|reflexivity|reflexivity|congruence| | | |left; split; reflexivity]; destruct (Nat.eqb_spec tv (head s)); congruence.
    + destruct (full s); intros [= <- <-]; (eapply (moves_pc _ _ _ r); [reflexivity|reflexivity|reflexivity|congruence|discriminate|discriminate|discriminate|]); [left; split; reflexivity|].
      right. right. exists r. auto.
    + intros [= <- <-]; (eapply (moves_pc _ _ _ r); [reflexivity|reflexivity|reflexivity|congruence|discriminate|discriminate|discriminate|]). right. left. exists r. auto.
    + intros [= <- <-]; (eapply (moves_pc _ _ _ r); [reflexivity|reflexivity|reflexivity|congruence| | | |left; split; reflexivity]); destruct (rowid s (tRow s) =? i / bufRow); congruence.
    + destruct (look (rows s) (i / bufRow)); intros [= <- <-]; (eapply (moves_pc _ _ _ r); [reflexivity|reflexivity|reflexivity|congruence|discriminate|discriminate|discriminate|left; split; reflexivity]).
    + destruct (rst s r); intros [= <- <-]; (eapply (moves_pc _ _ _ r); [reflexivity|reflexivity|reflexivity|congruence|discriminate|discriminate|discriminate|left; split; reflexivity]).
    + intros [= <- <-]; (eapply (moves_pc _ _ _ r); [reflexivity|reflexivity|reflexivity|congruence|discriminate|discriminate|discriminate|left; split; reflexivity]).
    + destruct (cp s); intros [= <- <-]; (eapply (moves_pc _ _ _ r); [reflexivity|reflexivity|reflexivity|congruence|discriminate|discriminate|discriminate|left; split; reflexivity]).
    + intros [= <- <-]; now apply moves_quiet.
  - unfold step_loop, ok. assert (DN : done s = match lp s with LInc => S (head s) | _ => head s end) by reflexivity. destruct (lp s) eqn:L.
    + destruct (token s); [|destruct (cp s)]; intros [= <- <-]; apply moves_quiet; rewrite ?DN; unfold done; fields; auto; destruct (lp s); lia.
    + intros [= <- <-]; apply moves_quiet; rewrite ?DN; unfold done; fields; auto; destruct (head s <? tail s); lia.
    + destruct (rowid s (hRow s) =? head s / bufRow); [|destruct (look (rows s) (head s / bufRow))]; intros [= <- <-]; apply moves_quiet; rewrite ?DN; unfold done; fields; auto.
    + destruct (cst (cells s p (head s mod bufRow))); intros [= <- <-]; apply moves_quiet; rewrite ?DN; unfold done; fields; auto.
    + intros [= <- <-]; apply moves_quiet; rewrite ?DN; unfold done; fields; auto.
    + intros [= <- <-]; apply moves_quiet; rewrite ?DN; unfold done; fields; auto.
    + destruct q as [r|]; [destruct (rst s r)|]; intros [= <- <-]; apply moves_quiet; rewrite ?DN; unfold done; fields; auto.
    + destruct (full s); intros [= <- <-]; [now apply moves_quiet|].
      split; fields; auto; rewrite ?DN; unfold done; fields; auto. right. right. exists r. split; [reflexivity|]. split; [reflexivity|]. right. split; [exact L|lia].
    + intros [= <- <-]; apply moves_quiet; rewrite ?DN; unfold done; fields; auto.
    + intros [= <- <-]; now apply moves_quiet.
Qed.

(** [a] was sent and the call has returned before [b] was sent *)
Record OI (a b : rid) (s : st) (t : list obs) : Prop := {
  o_a : pcs s a = PRet;
  o_b : pcs s b <> PNone;
  o_head : forall i tv, nth_error (queued t) i = Some a -> pcs s b = PHead tv -> i < tv;
  o_try : forall i, nth_error (queued t) i = Some a -> pcs s b = PTry -> i < head s;
  o_idx : forall i k, nth_error (queued t) i = Some a -> nth_error (queued t) k = Some b -> i < k;
  o_ord : In b (given t) -> In a (given t) -> exists l1 l2, given t = l1 ++ b :: l2 /\ In a l1;
  o_pass : In b (given t) -> forall i, nth_error (queued t) i = Some a -> i < done s }.
Lemma OI_step a b s t e o s' : a <> b -> BI s t -> OI a b s t -> step s e = (o, Some s') -> OI a b s' (t ++ o).
Proof.
  intros AB B O E. assert (B' := BI_step _ _ _ _ _ B E). assert (M := step_moves _ _ _ _ _ B E). destruct M. destruct O.
  assert (TL := b_tail _ _ B). assert (LO := b_lp _ _ B). assert (ND := b_nd _ _ B).
  assert (QA : forall i, nth_error (queued (t ++ o)) i = Some a -> nth_error (queued t) i = Some a).
  { intros i. rewrite queued_app. destruct mv_obs0 as [[-> _]|[(x & -> & _ & P)|(x & -> & _)]]; rewrite ?app_nil_r; auto.
    rewrite nth_error_snoc. intros [Q|[_ ->]]; [exact Q|congruence]. }
  assert (LT : forall i, nth_error (queued t) i = Some a -> i < tail s) by (intros i Q; rewrite TL; apply nth_error_Some; congruence).
  split.
  - auto.
  - auto.
  - intros i tv Q P. apply QA in Q. destruct (mv_headpc0 b tv P) as [P'| ->]; [eauto|auto].
  - intros i Q P. apply QA in Q. destruct (mv_try0 b P) as [P'|P']; [specialize (o_try0 i Q P'); lia|]. specialize (o_head0 i _ Q P'). lia.
  - intros i k Q Q2. apply QA in Q. rewrite queued_app in Q2. destruct mv_obs0 as [[X _]|[(x & X & _ & P)|(x & X & _)]]; rewrite X, ?app_nil_r in Q2; eauto.
    apply nth_error_snoc in Q2. destruct Q2 as [Q2|[-> _]]; [eauto|]. rewrite <- TL. auto.
  - rewrite given_app. destruct mv_obs0 as [[_ X]|[(x & _ & X & P)|(x & QX & X & P)]]; rewrite X, ?app_nil_r; auto.
    intros IB IA. apply in_app_or in IB. apply in_app_or in IA. cbn [In] in *.
    assert (NA : x <> a \/ ~ In b (given t)).
    { destruct (Nat.eq_dec x a) as [->|]; [|auto]. right. intros IN. destruct P as [[_ P]|[P _]]; [congruence|].
      unfold lpok in LO. rewrite P in LO. destruct LO as [Q _]. specialize (o_pass0 IN _ Q). unfold done in o_pass0. rewrite P in o_pass0. lia. }
    destruct IB as [IB|[-> |[]]].
    + destruct IA as [IA|[-> |[]]]; [|destruct NA as [NA|NA]; [congruence|contradiction]].
      destruct (o_ord0 IB IA) as (l1 & l2 & -> & IN). exists l1, (l2 ++ [x]). rewrite <- app_assoc. auto.
    + destruct IA as [IA|[-> |[]]]; [|congruence]. exists (given t), []. auto.
  - rewrite given_app. intros IB i Q. apply QA in Q. destruct mv_obs0 as [[_ X]|[(x & _ & X & P)|(x & QX & X & P)]]; rewrite X, ?app_nil_r in IB;
    try (specialize (o_pass0 IB i Q); lia).
    apply in_app_or in IB. destruct IB as [IB|[-> |[]]]; [specialize (o_pass0 IB i Q); lia|].
    destruct P as [[_ P]|[P D]].
    + specialize (o_try0 i Q P). unfold done. destruct (lp s'); lia.
    + unfold lpok in LO. rewrite P in LO. destruct LO as [Q2 _]. specialize (o_idx0 _ _ Q Q2). unfold done in D at 1. rewrite P in D. lia.
Qed.
Lemma OI_init a b s t s' o : a <> b -> BI s t -> CI s t -> In a (returned t) -> step s (Send b) = (o, Some s') -> In b (sent o) -> OI a b s' (t ++ o).
Proof.
  intros AB B C RA E IN. assert (B' := BI_step _ _ _ _ _ B E). cbn [step] in E. unfold ok in E.
  assert (PA : pcs s a = PRet) by (apply (c_ret _ _ C); exact RA).
  destruct (pcs s b) eqn:P; try (injection E as <- <-; contradiction).
  assert (NQ := b_early _ _ B b). rewrite P in NQ. destruct (NQ eq_refl) as (NQ1 & NQ2 & _).
  assert (NG : ~ In b (given t)).
  { rewrite given_in. intros [X|X]; [contradiction|]. apply NQ1. eapply subseq_in; [exact (handed_queued _ _ B)|exact X]. }
  assert (K : forall pc, pc <> PNone -> pc <> PTry -> (forall tv, pc <> PHead tv) -> pcs s' = upd (pcs s) b pc -> queued o = [] -> given o = [] -> OI a b s' (t ++ o)).
  { intros pc N1 N2 N3 EP O1 O2. split; rewrite ?EP, ?queued_app, ?given_app, ?O1, ?O2, ?app_nil_r, ?upd_same, ?(upd_other _ _ _ _ AB); auto; try contradiction.
    - intros i tv _ X. destruct (N3 tv X).
    - intros i k _ Q. destruct NQ1. eapply nth_in; eauto. }
  destruct (rst s b); injection E as <- <-; try contradiction.
  - apply (K PCheck); try discriminate; reflexivity.
  - apply (K PRet); try discriminate; reflexivity.
Qed.
Lemma OI_run a b n es : a <> b -> forall s t t' s', reach n t s -> OI a b s t -> run s es = (t', Some s') -> OI a b s' (t ++ t').
Proof.
  intros AB. induction es as [|e es IH]; intros s t t' s' R O; cbn [run].
  - intros [= <- <-]. now rewrite app_nil_r.
  - destruct (step s e) as [o [s1|]] eqn:E; [|discriminate]. destruct (run s1 es) as [o' f] eqn:Q. intros [= <- ->].
    rewrite app_assoc. eapply IH; [eapply reachS; eauto| |exact Q]. eapply OI_step; eauto using reach_BI.
Qed.

(** the rows kept *)
Record MI (s : st) : Prop := {
  m_nd : NoDup (map fst (rows s));
  m_lo : forall b p, In (b, p) (rows s) -> rowid s (hRow s) <= b;
  m_hi : forall b p, In (b, p) (rows s) -> b <= (tail s - 1) / bufRow;
  m_h : rowid s (hRow s) <= head s / bufRow <= S (rowid s (hRow s));
  m_lp : match lp s with LState _ | LReq _ | LFree _ _ | LPend _ | LSend _ | LInc => rowid s (hRow s) = head s / bufRow | _ => True end }.
Lemma MI_quiet s s' : MI s -> rows s' = rows s -> rowid s' = rowid s -> hRow s' = hRow s -> tail s <= tail s' -> head s' = head s ->
  match lp s' with LState _ | LReq _ | LFree _ _ | LPend _ | LSend _ | LInc => rowid s (hRow s) = head s / bufRow | _ => True end -> MI s'.
Proof.
  intros M E1 E2 E3 L E4 LP. destruct M. split; rewrite ?E1, ?E2, ?E3, ?E4; auto.
  intros b p IN. specialize (m_hi0 b p IN). etransitivity; [exact m_hi0|]. apply Nat.div_le_mono; [apply bufRow_pos|lia].
Qed.
Lemma div_S n : S n / bufRow <= S (n / bufRow).
Proof.
  rewrite <- Nat.add_1_r, <- (Nat.add_1_r (n / bufRow)), <- (Nat.div_add n 1 bufRow bufRow_pos).
  apply Nat.div_le_mono; [apply bufRow_pos|]. assert (X := bufRow_pos). lia.
Qed.
Lemma mdel_nd m k : NoDup (map fst m) -> NoDup (map fst (mdel m k)).
Proof.
  intros N. induction m as [|[b p] m IH]; [constructor|]. cbn [map fst] in N. inversion N; subst. unfold mdel in *. cbn [filter fst].
  destruct (b =? k); cbn [negb]; [auto|]. cbn [map fst]. constructor; [|auto]. intros IN. apply H1. apply in_map_iff in IN.
  destruct IN as ([b' p'] & E & IN). apply filter_In in IN. cbn [fst] in E. subst b'. apply in_map_iff. exists (b, p'). tauto.
Qed.
Lemma MI_step s t e o s' : BI s t -> MI s -> step s e = (o, Some s') -> MI s'.
Proof.
  intros B M. assert (ML := m_lp _ M). destruct e; cbn [step]; unfold ok.
  - destruct (pcs s r) eqn:P; try (intros [= <- <-]; exact M).
    destruct (rst s r); intros [= <- <-]; try exact M; now apply (MI_quiet s).
  - destruct (cp s); intros [= <- <-]; now apply (MI_quiet s).
  - destruct (rst s r); intros [= <- <-]; now apply (MI_quiet s).
  - intros [= <- <-]; now apply (MI_quiet s).
  - destruct (rst s r), (chained s r) as [[]|]; intros [= <- <-]; now apply (MI_quiet s).
  - destruct (rst s r), (chained s r) as [[]|]; intros [= <- <-]; now apply (MI_quiet s).
  - destruct (ch s); intros [= <- <-]; now apply (MI_quiet s).
  - unfold step_push, ok. destruct (pcs s r) eqn:P.
    + intros [= <- <-]; exact M.
    + destruct (rst s r); intros [= <- <-]; now apply (MI_quiet s).
    + intros [= <- <-]; now apply (MI_quiet s).
    + intros [= <- <-]; now apply (MI_quiet s).
    + destruct (full s); intros [= <- <-]; now apply (MI_quiet s).
    + intros [= <- <-]; apply (MI_quiet s); fields; auto.
    + intros [= <- <-]; now apply (MI_quiet s).
    + assert (QI : nth_error (queued t) i = Some r) by (apply (b_idx _ _ B); now rewrite P).
      assert (IT : i < tail s) by (rewrite (b_tail _ _ B); apply nth_error_Some; congruence).
      assert (HI : head s <= i).
      { destruct (Nat.lt_ge_cases i (head s)) as [L|L]; [|exact L]. assert (X := b_past _ _ B i r L QI). rewrite P in X. cbn in X. lia. }
      destruct (look (rows s) (i / bufRow)) as [p|] eqn:LK; intros [= <- <-]; [now apply (MI_quiet s)|].
      assert (HP := proj1 (b_ptrs _ _ B)). assert (RH : upd (rowid s) (nrow s) (i / bufRow) (hRow s) = rowid s (hRow s)) by (apply upd_other; lia).
      assert (DI : head s / bufRow <= i / bufRow) by (apply Nat.div_le_mono; [apply bufRow_pos|exact HI]).
      destruct M. split; fields; rewrite ?RH; auto.
      * cbn [map fst]. constructor; [|exact m_nd0]. intros IN. apply in_map_iff in IN. destruct IN as ([b p] & E & IN). cbn [fst] in E. subst b.
        exact (look_none _ _ p LK IN).
      * intros b p [[= <- <-]|IN]; [lia|eauto].
      * intros b p [[= <- <-]|IN]; [|eauto]. apply Nat.div_le_mono; [apply bufRow_pos|lia].
    + destruct (rst s r); intros [= <- <-]; now apply (MI_quiet s).
    + intros [= <- <-]; now apply (MI_quiet s).
    + destruct (cp s); intros [= <- <-]; now apply (MI_quiet s).
    + intros [= <- <-]; exact M.
  - unfold step_loop, ok. destruct (lp s) eqn:L.
    + destruct (token s); [|destruct (cp s)]; intros [= <- <-]; try exact M; now apply (MI_quiet s).
    + intros [= <- <-]; apply (MI_quiet s); fields; auto. now destruct (head s <? tail s).
    + destruct (Nat.eqb_spec (rowid s (hRow s)) (head s / bufRow)) as [E|E]; [intros [= <- <-]; now apply (MI_quiet s)|].
      assert (HB : head s / bufRow = S (rowid s (hRow s))) by (assert (X := m_h _ M); lia). rewrite HB.
      assert (R1 : forall e, In e (mdel (rows s) (rowid s (hRow s))) -> In e (rows s)) by (intros e; unfold mdel; rewrite filter_In; tauto).
      destruct (look (rows s) (S (rowid s (hRow s)))) as [p|] eqn:LK; intros [= <- <-].
      * destruct (b_rows _ _ B _ _ (look_in _ _ _ LK)) as [PL PR]. destruct M. split; fields.
        -- now apply mdel_nd.
        -- intros b q IN. rewrite PR. unfold mdel in IN. apply filter_In in IN. destruct IN as [IN NE]. cbn [fst] in NE.
           apply negb_true_iff, Nat.eqb_neq in NE. specialize (m_lo0 b q IN). lia.
        -- intros b q IN. eauto.
        -- rewrite PR, HB. lia.
        -- congruence.
      * destruct M. split; fields; eauto. now apply mdel_nd.
    + destruct (cst (cells s p (head s mod bufRow))); intros [= <- <-]; apply (MI_quiet s); fields; auto.
    + intros [= <- <-]; apply (MI_quiet s); fields; auto.
    + intros [= <- <-]; apply (MI_quiet s); fields; auto.
    + destruct q as [r|]; [destruct (rst s r)|]; intros [= <- <-]; apply (MI_quiet s); fields; auto.
    + destruct (full s); intros [= <- <-]; [exact M|]. apply (MI_quiet s); fields; auto.
    + intros [= <- <-]. destruct M. split; fields; auto. rewrite ML. split; [apply Nat.div_le_mono; [apply bufRow_pos|lia]|apply div_S].
    + intros [= <- <-]; exact M.
Qed.
Lemma reach_MI n t s : reach n t s -> MI s.
Proof.
  intros R. induction R; [|eapply MI_step; eauto using reach_BI]. split; cbn; auto.
  - constructor; [intros []|constructor].
  - intros b p [[= <- <-]|[]]. lia.
  - intros b p [[= <- <-]|[]]. apply Nat.le_0_l.
Qed.
Lemma nodup_range l lo hi : NoDup l -> (forall x, In x l -> lo <= x <= hi) -> length l <= S hi - lo.
Proof.
  intros N H. rewrite <- (seq_length (S hi - lo) lo). apply NoDup_incl_length; [exact N|]. intros x IN. apply in_seq. specialize (H x IN). lia.
Qed.
Lemma rows_bound s : MI s -> head s <= tail s -> length (rows s) <= (tail s - head s) / bufRow + 3.
Proof.
  intros M HT. rewrite <- (map_length fst). destruct M.
  assert (X : length (map fst (rows s)) <= S ((tail s - 1) / bufRow) - rowid s (hRow s)).
  { apply nodup_range; [exact m_nd0|]. intros x IN. apply in_map_iff in IN. destruct IN as ([b p] & <- & IN). cbn [fst]. split; eauto. }
  assert (Y : (tail s - 1) / bufRow <= head s / bufRow + (tail s - head s) / bufRow + 1).
  { apply Nat.lt_succ_r. apply Nat.div_lt_upper_bound; [apply bufRow_pos|].
    assert (P := bufRow_pos). assert (D1 := Nat.div_mod (head s) bufRow P). assert (D2 := Nat.div_mod (tail s - head s) bufRow P).
    assert (M1 := Nat.mod_upper_bound (head s) bufRow P). assert (M2 := Nat.mod_upper_bound (tail s - head s) bufRow P). nia. }
  lia.
Qed.
