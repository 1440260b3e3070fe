(** Invariants of starting an endpoint. *)
From Coq Require Import List Bool Arith Lia.
Import ListNotations.
From Verif Require Import RunModel RunSpec.

Lemma run_app : forall es es' s, run s (es ++ es') =
  (fst (run s es) ++ fst (run (snd (run s es)) es'), snd (run (snd (run s es)) es')).
Proof.
  induction es as [|e es IH]; intros es' s; simpl.
  - destruct (run s es') as [o s']; reflexivity.
  - destruct (step s e) as [o s1]. rewrite IH. destruct (run s1 es) as [o1 s2]. simpl.
    destruct (run s2 es') as [o2 s3]. simpl. now rewrite app_assoc.
Qed.
Lemma run_snoc : forall es e s, run s (es ++ [e]) =
  (fst (run s es) ++ fst (step (snd (run s es)) e), snd (step (snd (run s es)) e)).
Proof.
  intros es e s. rewrite run_app. simpl. destruct (step (snd (run s es)) e) as [o s']. simpl. now rewrite app_nil_r.
Qed.
Lemma upd_same : forall A (f : nat -> A) k v, upd f k v k = v.
Proof. intros. unfold upd. now rewrite Nat.eqb_refl. Qed.
Lemma upd_other : forall A (f : nat -> A) k v i, i <> k -> upd f k v i = f i.
Proof. intros. unfold upd. destruct (Nat.eqb_spec i k); congruence. Qed.

(** ** any calls at all *)
Definition pok (s : st) (k : nat) : Prop :=
  match pcs s k with
  | RInit _ => alone s = true
  | RSet _ => alone s = true /\ made s = true
  | SAlone _ | SPush _ | RGo => bch s <> None
  | _ => True
  end.
Definition INV (s : st) : Prop := (bch s <> None -> alone s = true /\ made s = true) /\ forall k, pok s k.

Ltac pcases k0 k := destruct (Nat.eq_dec k0 k) as [->|?]; [rewrite ?upd_same in *|rewrite ?upd_other in * by assumption].

Lemma inv_step : forall s e, INV s -> INV (snd (step s e)).
Proof.
  intros s e [H P]. unfold INV.
  destruct e as [k|k r|k|l]; simpl.
  - destruct (pcs s k) eqn:E; simpl; (split; [exact H|]); try exact P.
    intros j. generalize (P j). unfold pok. simpl. pcases j k; simpl; auto.
  - destruct (pcs s k) eqn:E; simpl; (split; [exact H|]); try exact P.
    intros j. generalize (P j). unfold pok. simpl. pcases j k; simpl; auto.
  - generalize (P k). unfold step_go, pok. destruct (pcs s k) eqn:E; simpl; intros PK; try (split; [exact H|exact P]).
    + destruct (bch s) eqn:B; simpl; (split; [rewrite ?B; auto|]); intros j; generalize (P j); unfold pok; simpl; rewrite ?B; pcases j k; simpl; auto.
    + split; [exact H|]. intros j; generalize (P j); unfold pok; simpl; pcases j k; simpl; auto.
    + split; [intros X; destruct (H X); auto|]. intros j; generalize (P j); unfold pok; simpl; pcases j k; simpl; auto.
      destruct (pcs s j); tauto.
    + split; [intros X; destruct (H X); auto|]. intros j; generalize (P j); unfold pok; simpl; pcases j k; simpl; auto.
      destruct (pcs s j); tauto.
    + split; [auto|]. intros j; generalize (P j); unfold pok; simpl; pcases j k; simpl; auto; try discriminate.
      destruct (pcs s j); try tauto; discriminate.
    + split; [exact H|]. intros j; generalize (P j); unfold pok; simpl; pcases j k; simpl; auto.
    + destruct (bch s) eqn:B; simpl; (split; [rewrite ?B; auto|]); intros j; generalize (P j); unfold pok; simpl; rewrite ?B; pcases j k; simpl; auto; try discriminate.
    + destruct (alone s) eqn:B; simpl; (split; [rewrite ?B; auto|]); intros j; generalize (P j); unfold pok; simpl; rewrite ?B; pcases j k; simpl; auto.
    + destruct (made s) eqn:B; [destruct (bch s) eqn:C|]; simpl; (split; [rewrite ?B, ?C; auto|]); intros j; generalize (P j); unfold pok; simpl; rewrite ?B, ?C; pcases j k; simpl; auto; discriminate.
  - unfold step_loop. destruct (lps s l) eqn:E; simpl.
    + split; assumption.
    + destruct (bch s) eqn:B; simpl; (split; [simpl; rewrite ?B; auto|]); intros j; generalize (P j); unfold pok; simpl; rewrite ?B; auto.
    + destruct (ch s c) eqn:B; simpl; (split; [auto|]); intros j; generalize (P j); unfold pok; simpl; auto.
Qed.
Lemma inv_run : forall es s, INV s -> INV (snd (run s es)).
Proof.
  induction es as [|e es IH] using rev_ind; intros s H; [exact H|]. rewrite run_snoc. simpl. apply inv_step. auto.
Qed.
Lemma inv_init : INV s_init.
Proof. split; [intros X; now contradiction X|]. intros k. exact Logic.I. Qed.

Lemma no_crash_step : forall s e k, INV s -> ~ In (OCrash k) (fst (step s e)).
Proof.
  intros s e k [H P] X. destruct e as [j|j r|j|l]; simpl in X.
  - destruct (pcs s j); simpl in X; intuition discriminate.
  - destruct (pcs s j); simpl in X; intuition discriminate.
  - specialize (P j). unfold pok in P. unfold step_go in X. destruct (pcs s j) eqn:E; simpl in X; try (now intuition discriminate).
    + destruct (bch s); simpl in X; intuition discriminate.
    + destruct (bch s); simpl in X; intuition discriminate.
    + destruct (H P) as [U V]. rewrite U in X. simpl in X. tauto.
    + destruct (H P) as [U V]. rewrite V in X. destruct (bch s); [|now contradiction P]. simpl in X. intuition discriminate.
  - unfold step_loop in X. destruct (lps s l); simpl in X; try tauto.
    + destruct (bch s); simpl in X; tauto.
    + destruct (ch s c); simpl in X; intuition discriminate.
Qed.
Lemma no_crash : forall es k, ~ In (OCrash k) (fst (start es)).
Proof.
  induction es as [|e es IH] using rev_ind; intros k; [simpl; tauto|]. unfold start. rewrite run_snoc. simpl.
  intros X. apply in_app_or in X as [X|X]; [exact (IH _ X)|]. exact (no_crash_step _ _ _ (inv_run _ _ inv_init) X).
Qed.

(** once started, always started *)
Lemma bch_step : forall s e, bch s <> None -> bch (snd (step s e)) <> None.
Proof.
  intros s e H. destruct e as [j|j r|j|l]; simpl.
  - destruct (pcs s j); exact H.
  - destruct (pcs s j); exact H.
  - unfold step_go. destruct (bch s) eqn:B; [|congruence].
    destruct (pcs s j); simpl; rewrite ?B; try discriminate.
    + destruct (alone s); simpl; rewrite B; discriminate.
    + destruct (made s); simpl; rewrite B; discriminate.
  - unfold step_loop. destruct (bch s) eqn:B; [|congruence]. destruct (lps s l); simpl; rewrite ?B; try discriminate.
    destruct (ch s c); simpl; rewrite B; discriminate.
Qed.
Lemma bch_run : forall es s, bch s <> None -> bch (snd (run s es)) <> None.
Proof.
  induction es as [|e es IH] using rev_ind; intros s H; [exact H|]. rewrite run_snoc. simpl. apply bch_step. auto.
Qed.
Lemma ran_bch : forall es k, In (ORan k) (fst (start es)) -> bch (snd (start es)) <> None.
Proof.
  induction es as [|e es IH] using rev_ind; intros k X; [contradiction X|]. unfold start in *. rewrite run_snoc in *. simpl in *.
  apply in_app_or in X as [X|X]; [apply bch_step; eapply IH; eauto|].
  apply bch_step. set (s := snd (run s_init es)) in *. pose proof (inv_run es _ inv_init) as [H P]. fold s in H, P.
  destruct e as [j|j r|j|l]; simpl in X.
  - destruct (pcs s j); simpl in X; intuition discriminate.
  - destruct (pcs s j); simpl in X; intuition discriminate.
  - specialize (P j). unfold pok in P. unfold step_go in X. destruct (pcs s j) eqn:E; simpl in X; try (now intuition discriminate); try exact P.
    + destruct (bch s); simpl in X; intuition discriminate.
    + destruct (bch s); simpl in X; intuition discriminate.
  - unfold step_loop in X. destruct (lps s l); simpl in X; try tauto.
    + destruct (bch s); simpl in X; tauto.
    + destruct (ch s c); simpl in X; intuition discriminate.
Qed.

(** a Send that begins after a Run has returned does not panic *)
Lemma panic_step : forall s e k r, bch s <> None -> ~ In (OSendPanic k r) (fst (step s e)).
Proof.
  intros s e k r H X. destruct e as [j|j r'|j|l]; simpl in X.
  - destruct (pcs s j); simpl in X; intuition discriminate.
  - destruct (pcs s j); simpl in X; intuition discriminate.
  - unfold step_go in X. destruct (bch s) eqn:B; [|congruence]. destruct (pcs s j); simpl in X; try (now intuition discriminate).
    + destruct (alone s); simpl in X; intuition discriminate.
    + destruct (made s); simpl in X; intuition discriminate.
  - unfold step_loop in X. destruct (lps s l); simpl in X; try tauto.
    + destruct (bch s); simpl in X; tauto.
    + destruct (ch s c); simpl in X; intuition discriminate.
Qed.
Lemma no_panic_run : forall es s k r, bch s <> None -> ~ In (OSendPanic k r) (fst (run s es)).
Proof.
  induction es as [|e es IH] using rev_ind; intros s k r H; [simpl; tauto|]. rewrite run_snoc. simpl. intros X.
  apply in_app_or in X as [X|X]; [exact (IH _ _ _ H X)|]. exact (panic_step _ _ _ _ (bch_run es s H) X).
Qed.

(** ** counting *)
Lemma ran_app : forall a b, ran (a ++ b) = ran a ++ ran b.
Proof. intros. unfold ran. apply flat_map_app. Qed.
Lemma sent_app : forall a b, sent (a ++ b) = sent a ++ sent b.
Proof. intros. unfold sent. apply flat_map_app. Qed.
Lemma taken_app : forall a b, taken (a ++ b) = taken a ++ taken b.
Proof. intros. unfold taken. apply flat_map_app. Qed.
Lemma loops_app : forall a b, loops (a ++ b) = loops a + loops b.
Proof. intros. unfold loops. now rewrite filter_app, app_length. Qed.

Lemma count_step : forall s e, nl (snd (step s e)) = nl s + loops (fst (step s e)) /\
  length (ran (fst (step s e))) = loops (fst (step s e)).
Proof.
  intros s e. destruct e as [k|k r|k|l]; simpl; unfold step_go, step_loop, ok.
  - destruct (pcs s k); simpl; split; auto with arith.
  - destruct (pcs s k); simpl; split; auto with arith.
  - destruct (pcs s k); try (destruct (bch s)); try (destruct (alone s)); try (destruct (made s)); simpl; split; try reflexivity; unfold loops; simpl; lia.
  - destruct (lps s l); try (destruct (bch s)); try (destruct (ch s c)); simpl; split; try reflexivity; unfold loops; simpl; lia.
Qed.
Lemma count_run : forall es, nl (snd (start es)) = loops (fst (start es)) /\ length (ran (fst (start es))) = loops (fst (start es)).
Proof.
  induction es as [|e es [A1 A2]] using rev_ind; [split; reflexivity|]. unfold start in *. rewrite run_snoc. simpl.
  destruct (count_step (snd (run s_init es)) e) as [B1 B2]. rewrite loops_app, ran_app, app_length. lia.
Qed.

Definition in_run (p : pc) : bool :=
  match p with RTest | RMake | RAlone _ | RInit _ | RSet _ | RGo => true | _ => false end.

(** every call of Run is under way or has ended *)
Lemma ended_step : forall s e k, in_run (pcs s k) = true ->
  in_run (pcs (snd (step s e)) k) = true \/ In (ORan k) (fst (step s e)) \/ In (ORunPanic k) (fst (step s e)).
Proof.
  intros s e k H. destruct e as [j|j r|j|l]; simpl; unfold step_go, step_loop, ok.
  - destruct (Nat.eq_dec k j) as [->|N]; [destruct (pcs s j) eqn:E; simpl in *; try discriminate; rewrite ?E; auto|].
    left. destruct (pcs s j); simpl; rewrite ?upd_other by assumption; exact H.
  - destruct (Nat.eq_dec k j) as [->|N]; [destruct (pcs s j) eqn:E; simpl in *; try discriminate; rewrite ?E; auto|].
    left. destruct (pcs s j); simpl; rewrite ?upd_other by assumption; exact H.
  - destruct (Nat.eq_dec k j) as [->|N].
    + destruct (pcs s j) eqn:E; simpl in H; try discriminate; simpl; rewrite ?upd_same; auto.
      destruct (bch s); simpl; rewrite ?upd_same; auto.
    + left. destruct (pcs s j); try (destruct (bch s)); try (destruct (alone s)); try (destruct (made s)); simpl; rewrite ?upd_other by assumption; exact H.
  - left. destruct (lps s l); try (destruct (bch s)); try (destruct (ch s c)); exact H.
Qed.
Lemma ended_run : forall es k, In (ORun k) (fst (start es)) ->
  in_run (pcs (snd (start es)) k) = true \/ In (ORan k) (fst (start es)) \/ In (ORunPanic k) (fst (start es)).
Proof.
  induction es as [|e es IH] using rev_ind; intros k X; [contradiction X|]. unfold start in *. rewrite run_snoc in *. simpl in *.
  apply in_app_or in X as [X|X].
  - destruct (IH _ X) as [Y|[Y|Y]].
    + destruct (ended_step _ e _ Y) as [U|[U|U]]; [left; exact U|right; left|right; right]; apply in_or_app; auto.
    + right; left; apply in_or_app; auto.
    + right; right; apply in_or_app; auto.
  - left. set (s := snd (run s_init es)) in *. destruct e as [j|j r|j|l]; simpl in *; unfold step_go, step_loop, ok in *.
    + destruct (pcs s j) eqn:E; simpl in X; try tauto. destruct X as [X|[]]. injection X as ->. simpl. now rewrite upd_same.
    + destruct (pcs s j) eqn:E; simpl in X; try tauto. destruct X as [X|[]]. discriminate.
    + exfalso. destruct (pcs s j); try (destruct (bch s)); try (destruct (alone s)); try (destruct (made s)); simpl in X; intuition discriminate.
    + exfalso. destruct (lps s l); try (destruct (bch s)); try (destruct (ch s c)); simpl in X; intuition discriminate.
Qed.
(** a call of Run that panics has met an endpoint that is started *)
Lemma runpanic_bch : forall es k, In (ORunPanic k) (fst (start es)) -> bch (snd (start es)) <> None.
Proof.
  induction es as [|e es IH] using rev_ind; intros k X; [contradiction X|]. unfold start in *. rewrite run_snoc in *. simpl in *.
  apply in_app_or in X as [X|X]; [apply bch_step; eapply IH; eauto|].
  apply bch_step. set (s := snd (run s_init es)) in *.
  destruct e as [j|j r|j|l]; simpl in X; unfold step_go, step_loop, ok in *.
  - destruct (pcs s j); simpl in X; intuition discriminate.
  - destruct (pcs s j); simpl in X; intuition discriminate.
  - destruct (bch s); [discriminate|]. exfalso. destruct (pcs s j); try (destruct (alone s)); try (destruct (made s)); simpl in X; intuition discriminate.
  - exfalso. destruct (lps s l); try (destruct (bch s)); try (destruct (ch s c)); simpl in X; intuition discriminate.
Qed.

(** ** calls of Run one by one *)
Inductive phase (s : st) : Prop :=
| P0 (B : bch s = None) (N : nch s = 0) (L : nl s = 0) (E : forall k, in_run (pcs s k) = true -> pcs s k = RTest \/ pcs s k = RMake)
| P1 (k : nat) (B : bch s = None) (L : nl s = 0) (N : nch s = 1) (K : pcs s k = RAlone 0 \/ pcs s k = RInit 0 \/ pcs s k = RSet 0)
| P2 (k : nat) (B : bch s = Some 0) (L : nl s = 0) (N : nch s = 1) (K : pcs s k = RGo)
| P3 (B : bch s = Some 0) (L : nl s = 1) (N : nch s = 1) (W : lps s 0 = LAsk \/ lps s 0 = LRecv 0) (E : forall k, in_run (pcs s k) = true -> pcs s k = RTest).
Record J (s : st) (t : list obs) : Prop := {
  j_one : forall k j, in_run (pcs s k) = true -> in_run (pcs s j) = true -> k = j;
  j_way : forall k, in_run (pcs s k) = true -> exists a b, t = a ++ ORun k :: b /\ ~ In (ORan k) b /\ ~ In (ORunPanic k) b;
  j_ph : phase s;
  j_lp : forall l, nl s <= l -> lps s l = LNone;
  j_q : sent t = taken t ++ ch s 0 }.

Lemma one_prefix : forall a b, one_by_one (a ++ b) -> one_by_one a.
Proof.
  intros a b H t1 k t2 j t3 E. apply (H t1 k t2 j (t3 ++ b)). rewrite E. now repeat (rewrite <- app_assoc; simpl).
Qed.

(** a step that observes nothing of ends keeps who is under way *)
Lemma way_more : forall t o k, ~ In (ORan k) o -> ~ In (ORunPanic k) o ->
  (exists a b, t = a ++ ORun k :: b /\ ~ In (ORan k) b /\ ~ In (ORunPanic k) b) ->
  exists a b, t ++ o = a ++ ORun k :: b /\ ~ In (ORan k) b /\ ~ In (ORunPanic k) b.
Proof.
  intros t o k H1 H2 (a & b & -> & X & Y). exists a, (b ++ o). split; [now rewrite <- app_assoc|].
  split; intros U; apply in_app_or in U as [U|U]; auto.
Qed.

Lemma alone_k : forall s t k j, J s t -> in_run (pcs s k) = true -> j <> k -> in_run (pcs s j) = false.
Proof.
  intros s t k j H K N. destruct (in_run (pcs s j)) eqn:E; [|reflexivity]. exfalso. apply N. exact (j_one _ _ H _ _ E K).
Qed.

Lemma J_other : forall s t k p o, J s t -> in_run (pcs s k) = false -> in_run p = false ->
  (forall j, ~ In (ORan j) o /\ ~ In (ORunPanic j) o) -> sent o = [] -> taken o = [] -> J (w_pc s k p) (t ++ o).
Proof.
  intros s t k p o H K P O S1 S2.
  assert (F : forall j, in_run (upd (pcs s) k p j) = true -> j <> k /\ upd (pcs s) k p j = pcs s j).
  { intros j X. destruct (Nat.eq_dec j k) as [->|N]; [rewrite upd_same in X; congruence|]. split; [exact N|now apply upd_other]. }
  constructor; simpl.
  - intros i j X Y. destruct (F _ X) as [_ X']. destruct (F _ Y) as [_ Y']. rewrite X' in X. rewrite Y' in Y. exact (j_one _ _ H _ _ X Y).
  - intros j X. destruct (F _ X) as [_ X']. rewrite X' in X. apply way_more; [apply O|apply O|exact (j_way _ _ H _ X)].
  - destruct (j_ph _ _ H) as [B N L E|i B L N E|i B L N E|B L N W E].
    + apply P0; simpl; auto. intros j X. destruct (F _ X) as [_ X']. rewrite X' in *. auto.
    + apply (P1 _ i); simpl; auto. assert (i <> k) by (intros ->; destruct E as [E|[E|E]]; rewrite E in K; discriminate). now rewrite upd_other.
    + apply (P2 _ i); simpl; auto. assert (i <> k) by (intros ->; rewrite E in K; discriminate). now rewrite upd_other.
    + apply P3; simpl; auto. intros j X. destruct (F _ X) as [_ X']. rewrite X' in *. auto.
  - apply (j_lp _ _ H).
  - rewrite sent_app, taken_app, S1, S2, !app_nil_r. apply (j_q _ _ H).
Qed.
(** the call of Run that is under way goes on *)
Lemma J_on : forall s t k p s', J s t -> in_run (pcs s k) = true ->
  (forall j, pcs s' j = upd (pcs s) k p j) -> phase s' -> lps s' = lps s -> nl s' = nl s -> ch s' = ch s -> J s' (t ++ []).
Proof.
  intros s t k p s' H K U PH L1 L2 L3. rewrite app_nil_r.
  assert (F : forall j, in_run (pcs s' j) = true -> j = k).
  { intros j X. destruct (Nat.eq_dec j k) as [->|N]; [reflexivity|]. rewrite U, upd_other in X by exact N. exact (j_one _ _ H _ _ X K). }
  constructor.
  - intros i j X Y. rewrite (F _ X). symmetry. exact (F _ Y).
  - intros j X. rewrite (F _ X). exact (j_way _ _ H _ K).
  - exact PH.
  - intros l. rewrite L1, L2. apply (j_lp _ _ H).
  - rewrite L3. apply (j_q _ _ H).
Qed.
(** it ends *)
Lemma J_end : forall s t k s' o, J s t -> in_run (pcs s k) = true ->
  (forall j, pcs s' j = upd (pcs s) k PEnd j) -> phase s' -> (forall l, nl s' <= l -> lps s' l = LNone) -> ch s' = ch s ->
  sent o = [] -> taken o = [] -> J s' (t ++ o).
Proof.
  intros s t k s' o H K U PH L1 L3 S1 S2.
  assert (F : forall j, in_run (pcs s' j) = true -> False).
  { intros j X. destruct (Nat.eq_dec j k) as [->|N]; [rewrite U, upd_same in X; discriminate|]. rewrite U, upd_other in X by exact N. apply N. exact (j_one _ _ H _ _ X K). }
  constructor.
  - intros i j X Y. destruct (F _ X).
  - intros j X. destruct (F _ X).
  - exact PH.
  - exact L1.
  - rewrite L3, sent_app, taken_app, S1, S2, !app_nil_r. apply (j_q _ _ H).
Qed.
Lemma J_same : forall s t, J s t -> J s (t ++ []).
Proof. intros. now rewrite app_nil_r. Qed.
Lemma phase_bch : forall s c, phase s -> bch s = Some c -> c = 0.
Proof. intros s c [B N L E|i B L N E|i B L N E|B L N W E] X; congruence. Qed.

Lemma J_step : forall s t e, J s t -> one_by_one (t ++ fst (step s e)) -> J (snd (step s e)) (t ++ fst (step s e)).
Proof.
  intros s t e H O. destruct e as [k|k r|k|l]; simpl in *.
  - destruct (pcs s k) eqn:E; simpl in *; try (now apply J_same).
    assert (NO : forall j, in_run (pcs s j) = true -> False).
    { intros j X. destruct (j_way _ _ H _ X) as (a & b & -> & Y1 & Y2).
      destruct (O a j b k []) as [Z|Z]; [now rewrite <- app_assoc|tauto|tauto]. }
    assert (F : forall j, in_run (upd (pcs s) k RTest j) = true -> j = k).
    { intros j X. destruct (Nat.eq_dec j k) as [|N]; [assumption|]. rewrite upd_other in X by exact N. destruct (NO _ X). }
    constructor; simpl.
    + intros i j X Y. rewrite (F _ X). symmetry. exact (F _ Y).
    + intros j X. rewrite (F _ X). exists t, []. simpl. tauto.
    + destruct (j_ph _ _ H) as [B N L G|i B L N G|i B L N G|B L N W G].
      * apply P0; simpl; auto. intros j X. rewrite (F _ X), upd_same. auto.
      * exfalso. apply (NO i). destruct G as [G|[G|G]]; now rewrite G.
      * exfalso. apply (NO i). now rewrite G.
      * apply P3; simpl; auto. intros j X. rewrite (F _ X), upd_same. auto.
    + apply (j_lp _ _ H).
    + rewrite sent_app, taken_app. simpl. rewrite !app_nil_r. apply (j_q _ _ H).
  - destruct (pcs s k) eqn:E; simpl in *; try (now apply J_same).
    apply J_other; auto; [now rewrite E|]. simpl. intros j. split; intros [X|[]]; discriminate.
  - unfold step_go in *. destruct (pcs s k) eqn:E; simpl in *; try (now apply J_same).
    + (* RTest *)
      assert (K : in_run (pcs s k) = true) by now rewrite E.
      destruct (bch s) eqn:B; simpl in *.
      * apply (J_end s t k); auto; simpl; [|apply (j_lp _ _ H)].
        destruct (j_ph _ _ H) as [B' N L G|i B' L N G|i B' L N G|B' L N W G]; try congruence.
        -- exfalso. assert (i = k) by (apply (j_one _ _ H); [now rewrite G|exact K]). congruence.
        -- apply P3; simpl; auto. intros j X. destruct (Nat.eq_dec j k) as [->|NE]; [rewrite upd_same in X; discriminate|]. rewrite upd_other in * by exact NE. auto.
      * apply (J_on s t k RMake); auto; simpl.
        destruct (j_ph _ _ H) as [B' N L G|i B' L N G|i B' L N G|B' L N W G]; try congruence.
        -- apply P0; simpl; auto. intros j X. destruct (Nat.eq_dec j k) as [->|NE]; [rewrite upd_same; auto|]. rewrite upd_other in * by exact NE. auto.
        -- exfalso. assert (i = k) by (apply (j_one _ _ H); [destruct G as [G|[G|G]]; now rewrite G|exact K]). subst i. destruct G as [G|[G|G]]; congruence.
    + (* RMake *)
      assert (K : in_run (pcs s k) = true) by now rewrite E.
      apply (J_on s t k (RAlone (nch s))); auto; simpl.
      destruct (j_ph _ _ H) as [B' N L G|i B' L N G|i B' L N G|B' L N W G].
      * apply (P1 _ k); simpl; auto. rewrite upd_same, N. auto.
      * exfalso. assert (i = k) by (apply (j_one _ _ H); [destruct G as [G|[G|G]]; now rewrite G|exact K]). subst i. destruct G as [G|[G|G]]; congruence.
      * exfalso. assert (i = k) by (apply (j_one _ _ H); [now rewrite G|exact K]). congruence.
      * specialize (G _ K). congruence.
    + (* RAlone *)
      assert (K : in_run (pcs s k) = true) by now rewrite E.
      apply (J_on s t k (RInit c)); auto; simpl.
      destruct (j_ph _ _ H) as [B' N L G|i B' L N G|i B' L N G|B' L N W G].
      * destruct (G _ K); congruence.
      * assert (i = k) by (apply (j_one _ _ H); [destruct G as [G|[G|G]]; now rewrite G|exact K]). subst i.
        apply (P1 _ k); simpl; auto. rewrite upd_same. destruct G as [G|[G|G]]; try congruence. rewrite E in G. injection G as ->. auto.
      * exfalso. assert (i = k) by (apply (j_one _ _ H); [now rewrite G|exact K]). congruence.
      * specialize (G _ K). congruence.
    + (* RInit *)
      assert (K : in_run (pcs s k) = true) by now rewrite E.
      apply (J_on s t k (RSet c)); auto; simpl.
      destruct (j_ph _ _ H) as [B' N L G|i B' L N G|i B' L N G|B' L N W G].
      * destruct (G _ K); congruence.
      * assert (i = k) by (apply (j_one _ _ H); [destruct G as [G|[G|G]]; now rewrite G|exact K]). subst i.
        apply (P1 _ k); simpl; auto. rewrite upd_same. destruct G as [G|[G|G]]; try congruence. rewrite E in G. injection G as ->. auto.
      * exfalso. assert (i = k) by (apply (j_one _ _ H); [now rewrite G|exact K]). congruence.
      * specialize (G _ K). congruence.
    + (* RSet *)
      assert (K : in_run (pcs s k) = true) by now rewrite E.
      apply (J_on s t k RGo); auto; simpl.
      destruct (j_ph _ _ H) as [B' N L G|i B' L N G|i B' L N G|B' L N W G].
      * destruct (G _ K); congruence.
      * assert (i = k) by (apply (j_one _ _ H); [destruct G as [G|[G|G]]; now rewrite G|exact K]). subst i.
        apply (P2 _ k); simpl; auto; [|now rewrite upd_same]. destruct G as [G|[G|G]]; try congruence.
      * exfalso. assert (i = k) by (apply (j_one _ _ H); [now rewrite G|exact K]). congruence.
      * specialize (G _ K). congruence.
    + (* RGo *)
      assert (K : in_run (pcs s k) = true) by now rewrite E.
      apply (J_end s t k); auto; simpl.
      * destruct (j_ph _ _ H) as [B' N L G|i B' L N G|i B' L N G|B' L N W G].
        -- destruct (G _ K); congruence.
        -- exfalso. assert (i = k) by (apply (j_one _ _ H); [destruct G as [G|[G|G]]; now rewrite G|exact K]). subst i. destruct G as [G|[G|G]]; congruence.
        -- apply P3; simpl; auto; [rewrite L, upd_same; auto|]. intros j X. exfalso.
           destruct (Nat.eq_dec j k) as [->|NE]; [rewrite upd_same in X; discriminate|]. rewrite upd_other in X by exact NE.
           apply NE. exact (j_one _ _ H _ _ X K).
        -- specialize (G _ K). congruence.
      * intros l X. rewrite upd_other by lia. apply (j_lp _ _ H). lia.
    + (* STest *)
      destruct (bch s) eqn:B; simpl in *; apply J_other; auto; try (now rewrite E); simpl; intros j; split; tauto || (intros [X|[]]; discriminate).
    + (* SAlone *)
      destruct (alone s) eqn:B; simpl in *; apply J_other; auto; try (now rewrite E); simpl; intros j; split; tauto || (intros [X|[]]; discriminate).
    + (* SPush *)
      destruct (made s) eqn:M; [destruct (bch s) as [c|] eqn:B|]; simpl in *;
        try (apply J_other; auto; try (now rewrite E); simpl; intros j; split; intros [X|[]]; discriminate).
      assert (c = 0) by exact (phase_bch _ _ (j_ph _ _ H) B). subst c.
      assert (H' : J (w_pc s k PEnd) (t ++ [])) by (apply J_other; auto; now rewrite E). rewrite app_nil_r in H'.
      constructor; simpl.
      * apply (j_one _ _ H').
      * intros j X. apply way_more; [intros [Y|[]]; discriminate|intros [Y|[]]; discriminate|]. apply (j_way _ _ H'). exact X.
      * destruct (j_ph _ _ H') as [B' N L G|i B' L N G|i B' L N G|B' L N W G]; simpl in *.
        -- apply P0; auto.
        -- apply (P1 _ i); auto.
        -- apply (P2 _ i); auto.
        -- apply P3; auto.
      * apply (j_lp _ _ H).
      * rewrite sent_app, taken_app. simpl. rewrite app_nil_r, (j_q _ _ H), upd_same. now rewrite app_assoc.
  - unfold step_loop in *. destruct (lps s l) as [| |c] eqn:E; simpl in *; try (now apply J_same).
    + destruct (bch s) as [c|] eqn:B; simpl in *; try (now apply J_same).
      assert (c = 0) by exact (phase_bch _ _ (j_ph _ _ H) B). subst c.
      rewrite app_nil_r. constructor; simpl.
      * apply (j_one _ _ H).
      * apply (j_way _ _ H).
      * destruct (j_ph _ _ H) as [B' N L G|i B' L N G|i B' L N G|B' L N W G]; simpl in *.
        -- congruence.
        -- congruence.
        -- apply (P2 _ i); auto.
        -- apply P3; auto. simpl. destruct (Nat.eq_dec 0 l) as [<-|NE]; [rewrite upd_same; auto|rewrite upd_other by exact NE; exact W].
      * intros m X. rewrite upd_other; [exact (j_lp _ _ H _ X)|]. intros ->. rewrite (j_lp _ _ H _ X) in E. discriminate.
      * apply (j_q _ _ H).
    + destruct (ch s c) as [|r q] eqn:Q; simpl in *; try (now apply J_same).
      destruct (j_ph _ _ H) as [B' N L G|i B' L N G|i B' L N G|B' L N W G];
        try (exfalso; rewrite (j_lp _ _ H) in E by lia; discriminate).
      assert (l = 0) by (destruct l; [reflexivity|]; exfalso; rewrite (j_lp _ _ H) in E by lia; discriminate). subst l.
      assert (c = 0) by (destruct W as [W|W]; congruence). subst c.
      constructor; simpl.
      * apply (j_one _ _ H).
      * intros j X. apply way_more; [intros [Y|[]]; discriminate|intros [Y|[]]; discriminate|]. exact (j_way _ _ H _ X).
      * apply P3; auto.
      * intros m X. rewrite upd_other by lia. exact (j_lp _ _ H _ X).
      * rewrite sent_app, taken_app. simpl. rewrite app_nil_r, (j_q _ _ H), upd_same, Q. now rewrite <- app_assoc.
Qed.
Lemma J_run : forall es, one_by_one (fst (start es)) -> J (snd (start es)) (fst (start es)).
Proof.
  induction es as [|e es IH] using rev_ind; intros O.
  - constructor; simpl; try discriminate; auto. apply P0; simpl; auto; discriminate.
  - unfold start in *. rewrite run_snoc in *. simpl in *. apply J_step; [|exact O]. apply IH. exact (one_prefix _ _ O).
Qed.

(** nothing can go on: no call of Run is under way *)
Lemma quiet_not_running : forall s k, quiet s -> in_run (pcs s k) = false.
Proof.
  intros s k [Q _]. specialize (Q k). simpl in Q. unfold step_go, ok in Q.
  assert (G : forall o s', (o, s') = (@nil obs, s) -> pcs s' k = pcs s k) by (intros o s' X; injection X as -> ->; reflexivity).
  destruct (pcs s k) eqn:E; try reflexivity; try (apply G in Q; simpl in Q; rewrite upd_same in Q; discriminate).
  destruct (bch s); apply G in Q; simpl in Q; rewrite upd_same in Q; discriminate.
Qed.
Lemma quiet_empty : forall s t, J s t -> quiet s -> bch s <> None -> nl s = 1 /\ ch s 0 = [].
Proof.
  intros s t H Q N. destruct (j_ph _ _ H) as [B' M L G|i B' L M G|i B' L M G|B' L M W G]; try congruence.
  - pose proof (quiet_not_running _ i Q) as X. rewrite G in X. discriminate.
  - split; [exact L|]. destruct Q as [_ Q]. specialize (Q 0). simpl in Q. unfold step_loop, ok in Q. rewrite B' in Q.
    destruct W as [W|W]; rewrite W in Q.
    + exfalso. assert (X : lps (w_lp s 0 (LRecv 0)) 0 = lps s 0) by congruence. simpl in X. rewrite upd_same in X. congruence.
    + destruct (ch s 0); [reflexivity|discriminate].
Qed.
(** what is in a channel came through b.ch *)
Lemma empty_before : forall es, bch (snd (start es)) = None -> sent (fst (start es)) = [] /\ taken (fst (start es)) = [] .
Proof.
  assert (A : forall es, bch (snd (start es)) = None -> sent (fst (start es)) = [] /\ taken (fst (start es)) = [] /\ forall l, lps (snd (start es)) l = LNone).
  { induction es as [|e es IH] using rev_ind; intros B; [simpl; auto|]. unfold start in *. rewrite run_snoc in *. simpl in *.
    pose proof (inv_run es _ inv_init) as [_ P]. set (s := snd (run s_init es)) in *.
    assert (B0 : bch s = None) by (destruct (bch s) eqn:X; [exfalso; refine (bch_step s e _ B); congruence|reflexivity]).
    destruct (IH B0) as (I1 & I2 & I3). rewrite sent_app, taken_app, I1, I2. simpl.
    destruct e as [j|j r|j|l]; simpl in *.
    - destruct (pcs s j); simpl; auto.
    - destruct (pcs s j); simpl; auto.
    - specialize (P j). unfold pok in P. unfold step_go in *. rewrite B0 in *. destruct (pcs s j); simpl in *; auto; try congruence.
    - unfold step_loop in *. rewrite (I3 l) in *. simpl. auto. }
  intros es B. destruct (A es B) as (X & Y & _). auto.
Qed.
