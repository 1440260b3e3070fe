(** Invariants of Auto. *)
From Coq Require Import List Bool Arith Lia.
Import ListNotations.
From Verif Require Import AutoModel AutoSpec.

Lemma upd_same {A} (f : nat -> A) k v : upd f k v k = v.
Proof. unfold upd. now rewrite Nat.eqb_refl. Qed.
Lemma upd_other {A} (f : nat -> A) k v i : i <> k -> upd f k v i = f i.
Proof. intro. unfold upd. destruct (Nat.eqb_spec i k); congruence. Qed.
Lemma run_inv (P : list obs -> st -> Prop) : (forall t s e o s', P t s -> step s e = (o, s') -> P (t ++ o) s') ->
  forall es t s o s', P t s -> run s es = (o, s') -> P (t ++ o) s'.
Proof.
  intro H. induction es as [|e es IH]; intros t s o s' HP; cbn [run].
  - intro E. injection E as <- <-. now rewrite app_nil_r.
  - destruct (step s e) as [o1 s1] eqn:E1. destruct (run s1 es) as [o2 s2] eqn:E2. intro E. injection E as <- <-.
    rewrite app_assoc. eapply IH; [|exact E2]. eapply H; eauto.
Qed.
Lemma in_snoc {A} (x : A) l y : In x (l ++ [y]) <-> In x l \/ y = x.
Proof. rewrite in_app_iff. cbn. tauto. Qed.
Lemma in_nil_r {A} (x : A) l : In x (l ++ []) <-> In x l.
Proof. now rewrite app_nil_r. Qed.
Lemma in_del i j l : In i (del j l) <-> In i l /\ i <> j.
Proof. unfold del. split; [apply in_remove|]. intros [A B]. now apply in_in_remove. Qed.
Lemma mem_in i l : mem i l = true <-> In i l.
Proof. unfold mem. rewrite existsb_exists. split; [intros (x & Hx & E); apply Nat.eqb_eq in E; now subst|]. intro. exists i. split; [assumption|]. apply Nat.eqb_refl. Qed.
Lemma find_in a m i : find a m = Some i -> In (a, i) m.
Proof. induction m as [|[b j] m IH]; cbn; [discriminate|]. destruct (addr_eq a b) as [->|]; [intro E; injection E as ->; now left|]. intro. right. now apply IH. Qed.
Lemma find_none a m i : find a m = None -> ~ In (a, i) m.
Proof. induction m as [|[b j] m IH]; cbn; [tauto|]. destruct (addr_eq a b) as [->|N]; [discriminate|]. intros H [E|E]; [congruence|]. now apply IH. Qed.

(** the entries of the map *)
Definition ents (s : st) : smap := match servers s with None => [] | Some m => m end.
Lemma look_in a s i : look a (servers s) = Some i -> In (a, i) (ents s).
Proof. unfold look, ents. destruct (servers s); [apply find_in|discriminate]. Qed.
Lemma look_none a s i : look a (servers s) = None -> ~ In (a, i) (ents s).
Proof. unfold look, ents. destruct (servers s); [apply find_none|intros _ []]. Qed.
(** inside Stop, with the lock *)
Definition stopping (p : pc) : Prop := match p with TNext _ | THalt _ _ => True | _ => False end.
Definition holds (p : pc) : Prop := match p with TNext _ | THalt _ _ | GStore _ _ | PPanic => True | _ => False end.
Definition getting (a : addr) (p : pc) : Prop := match p with GNil b | GMake b | GLook b | GLock b | GStore b _ => b = a | _ => False end.
Definition in_stop (p : pc) : Prop := match p with TLock | TNext _ | THalt _ _ => True | _ => False end.

Record Inv (t : list obs) (s : st) : Prop := mkInv {
  iMap : forall a i, In (a, i) (ents s) -> In (OStart i a) t;
  iCnt : forall i a, In (OStart i a) t -> i < count s;
  iOne : forall i a b, In (OStart i a) t -> In (OStart i b) t -> a = b;
  iGet : forall k a i, In (OGet k a i) t -> In (OStart i a) t;
  iLock : forall k, lock s = Some k <-> holds (pcs s k);
  iSto : forall k a i, pcs s k = GStore a i -> In (OStart i a) t /\ ~ In (OHalt i) t /\ forall j, ~ In (a, j) (ents s);
  iTodo : forall k i l, pcs s k = TNext l \/ (exists j, pcs s k = THalt j l) -> In i l -> exists a, In (a, i) (ents s);
  iTh : forall k i l, pcs s k = THalt i l -> exists a, In (a, i) (ents s);
  iHalt : forall i, In (OHalt i) t -> i < count s;
  iHin : forall i a, In (OHalt i) t -> In (a, i) (ents s) -> exists k, (stopping (pcs s k) \/ pcs s k = PPanic) /\ In (OStop k) t;
  iPan : forall k, In (OPanic k) t <-> pcs s k = PPanic;
  iStd : forall k, In (OStopped k) t -> pcs s k = PEnd;
  iStop : forall k, In (OStop k) t -> in_stop (pcs s k) \/ In (OStopped k) t \/ pcs s k = PPanic;
  iIns : forall k, in_stop (pcs s k) \/ In (OStopped k) t -> In (OStop k) t;
  iCall : forall k a, In (OCall k a) t -> getting a (pcs s k) \/ (exists i, In (OGet k a i) t) \/ In (OPanic k) t;
  iLast : forall t1 i a t2, t = t1 ++ OStart i a :: t2 -> (exists k, In (OStopped k) t2) \/ In (a, i) (ents s) \/ exists k, pcs s k = GStore a i }.

Lemma init_inv : Inv [] s_init.
Proof.
  constructor; cbn; intros; try contradiction; try discriminate; try tauto.
  - split; [discriminate|tauto].
  - destruct H as [H|[j H]]; discriminate.
  - split; [tauto|discriminate].
  - destruct t1; discriminate.
Qed.
Lemma snoc_split {A} (l : list A) x l1 y l2 : l ++ [x] = l1 ++ y :: l2 -> (x = y /\ l = l1 /\ l2 = []) \/ exists l3, l2 = l3 ++ [x] /\ l = l1 ++ y :: l3.
Proof.
  destruct l2 as [|z l2 _] using rev_ind; intro E.
  - apply app_inj_tail in E. left. tauto.
  - right. exists l2. rewrite app_comm_cons, app_assoc in E. apply app_inj_tail in E. destruct E as [-> ->]. tauto.
Qed.
(** a step that only moves goroutine k, and says at most one thing *)
Definition quiet_obs (k : nat) (p q : pc) (s : st) (o : list obs) : Prop :=
  match o with
  | [] => True
  | [OCall j a] => j = k /\ getting a q
  | [OGet j a i] => j = k /\ In (a, i) (ents s)
  | [OStop j] => j = k /\ in_stop q
  | [OStopped j] => j = k /\ in_stop p /\ q = PEnd
  | [OUser _ _] | [OUserPanic _ _] => True
  | _ => False
  end.
Lemma move_inv t s k q o : Inv t s -> quiet_obs k (pcs s k) q s o -> ~ holds (pcs s k) -> ~ holds q -> pcs s k <> PEnd ->
  (in_stop (pcs s k) -> in_stop q \/ o = [OStopped k]) -> (in_stop q -> in_stop (pcs s k) \/ o = [OStop k]) ->
  (forall a, getting a (pcs s k) -> getting a q \/ exists i, o = [OGet k a i]) ->
  Inv (t ++ o) (w_pc s k q).
Proof.
  intros I Q H1 H2 NE S1 S2 G1.
  assert (QS : forall i a, ~ In (OStart i a) o) by (intros i a X; destruct o as [|[] [|]]; cbn in Q, X; try contradiction; destruct X as [X|X]; try discriminate; contradiction).
  assert (QH : forall i, ~ In (OHalt i) o) by (intros i X; destruct o as [|[] [|]]; cbn in Q, X; try contradiction; destruct X as [X|X]; try discriminate; contradiction).
  assert (QP : forall i, ~ In (OPanic i) o) by (intros i X; destruct o as [|[] [|]]; cbn in Q, X; try contradiction; destruct X as [X|X]; try discriminate; contradiction).
  assert (O : forall j, j <> k -> pcs (w_pc s k q) j = pcs s j) by (intros; cbn; now apply upd_other).
  assert (K : pcs (w_pc s k q) k = q) by (cbn; apply upd_same).
  constructor; try change (ents (w_pc s k q)) with (ents s); try change (count (w_pc s k q)) with (count s); try change (lock (w_pc s k q)) with (lock s).
  - intros a i H. apply in_or_app. left. exact (iMap _ _ I a i H).
  - intros i a H. apply in_app_or in H. destruct H as [H|H]; [exact (iCnt _ _ I i a H)|now apply QS in H].
  - intros i a b A B. apply in_app_or in A, B. destruct A as [A|A]; [|now apply QS in A]. destruct B as [B|B]; [|now apply QS in B]. exact (iOne _ _ I i a b A B).
  - intros j a i H. apply in_or_app. left. apply in_app_or in H. destruct H as [H|H]; [exact (iGet _ _ I j a i H)|].
    destruct o as [|[] [|]]; cbn in Q, H; try contradiction; destruct H as [H|H]; try discriminate; try contradiction. injection H as -> -> ->. now apply (iMap _ _ I).
  - intros j. destruct (Nat.eq_dec j k) as [->|N]; [|rewrite (O j N); apply (iLock _ _ I)]. rewrite K. split; [|contradiction]. intro H. apply (iLock _ _ I) in H. contradiction.
  - intros j a i H. destruct (Nat.eq_dec j k) as [->|N]; [rewrite K in H; rewrite H in H2; cbn in H2; contradiction|]. rewrite (O j N) in H.
    destruct (iSto _ _ I j a i H) as (A & B & C). split; [apply in_or_app; now left|]. split; [|exact C]. intro X. apply in_app_or in X. destruct X as [X|X]; [now apply B|now apply QH in X].
  - intros j i l H. destruct (Nat.eq_dec j k) as [->|N]; [rewrite K in H; destruct H as [H|[x H]]; rewrite H in H2; cbn in H2; contradiction|]. rewrite (O j N) in H. exact (iTodo _ _ I j i l H).
  - intros j i l H. destruct (Nat.eq_dec j k) as [->|N]; [rewrite K in H; rewrite H in H2; cbn in H2; contradiction|]. rewrite (O j N) in H. exact (iTh _ _ I j i l H).
  - intros i H. apply in_app_or in H. destruct H as [H|H]; [exact (iHalt _ _ I i H)|now apply QH in H].
  - intros i a H A. apply in_app_or in H. destruct H as [H|H]; [|now apply QH in H]. destruct (iHin _ _ I i a H A) as [j X]. exists j.
    destruct (Nat.eq_dec j k) as [->|N]; [exfalso; apply H1; destruct X as [[X|X] _]; [destruct (pcs s k); cbn in *; tauto|now rewrite X]|]. rewrite (O j N). split; [tauto|apply in_or_app; tauto].
  - intros j. destruct (Nat.eq_dec j k) as [->|N].
    + rewrite K. split; [|intro X; rewrite X in H2; cbn in H2; tauto]. intro H. apply in_app_or in H. destruct H as [H|H]; [|now apply QP in H]. apply (iPan _ _ I) in H. rewrite H in H1. cbn in H1. tauto.
    + rewrite (O j N). rewrite <- (iPan _ _ I). rewrite in_app_iff. split; [|tauto]. intros [H|H]; [exact H|now apply QP in H].
  - intros j H. apply in_app_or in H. destruct H as [H|H].
    + pose proof (iStd _ _ I j H) as X. destruct (Nat.eq_dec j k) as [->|N]; [contradiction|]. now rewrite (O j N).
    + destruct o as [|[] [|]]; cbn in Q, H; try contradiction; destruct H as [H|H]; try discriminate; try contradiction. injection H as ->. destruct Q as (-> & _ & ->). exact K.
  - intros j H. rewrite in_app_iff in H |- *. destruct (Nat.eq_dec j k) as [->|N].
    + rewrite K. destruct H as [H|H].
      * destruct (iStop _ _ I k H) as [X|[X|X]]; [|tauto|rewrite X in H1; cbn in H1; tauto]. destruct (S1 X) as [Y|Y]; [tauto|]. right. left. right. rewrite Y. now left.
      * left. destruct o as [|[] [|]]; cbn in Q, H; try contradiction; destruct H as [H|H]; try discriminate; try contradiction. tauto.
    + rewrite (O j N). assert (A : ~ In (OStop j) o) by (intro X; destruct o as [|[] [|]]; cbn in Q, X; try contradiction; destruct X as [X|X]; try discriminate; try contradiction; injection X as ->; tauto).
      destruct H as [H|H]; [|contradiction]. destruct (iStop _ _ I j H) as [X|[X|X]]; tauto.
  - intros j. rewrite !in_app_iff. destruct (Nat.eq_dec j k) as [->|N].
    + rewrite K. intros [X|[X|X]]; [|left; apply (iIns _ _ I); tauto|].
      * destruct (S2 X) as [Y|Y]; [left; apply (iIns _ _ I); tauto|]. right. rewrite Y. now left.
      * left. apply (iIns _ _ I). left. destruct o as [|[] [|]]; cbn in Q, X; try contradiction; destruct X as [X|X]; try discriminate; try contradiction. tauto.
    + rewrite (O j N). assert (B : ~ In (OStopped j) o) by (intro X; destruct o as [|[] [|]]; cbn in Q, X; try contradiction; destruct X as [X|X]; try discriminate; try contradiction; injection X as ->; tauto).
      intros [X|[X|X]]; [| |contradiction]; left; apply (iIns _ _ I); tauto.
  - intros j a H. apply in_app_or in H. destruct H as [H|H].
    + destruct (iCall _ _ I j a H) as [X|[[i X]|X]].
      * destruct (Nat.eq_dec j k) as [->|N]; [|rewrite (O j N); now left]. rewrite K. destruct (G1 a X) as [Y|[i Y]]; [now left|]. right. left. exists i. rewrite Y. apply in_or_app. right. now left.
      * right. left. exists i. apply in_or_app. now left.
      * right. right. apply in_or_app. now left.
    + destruct o as [|[] [|]]; cbn in Q, H; try contradiction; destruct H as [H|H]; try discriminate; try contradiction. injection H as -> ->. destruct Q as [-> Q]. rewrite K. now left.
  - intros t1 i a t2 E. 
    assert (X : exists t3, t = t1 ++ OStart i a :: t3 /\ t2 = t3 ++ o).
    { destruct o as [|x [|]]; [rewrite app_nil_r in E; exists t2; now rewrite app_nil_r| |destruct x; contradiction].
      apply snoc_split in E. destruct E as [(E & _)|(t3 & E1 & E2)]; [exfalso; apply (QS i a); now left|]. now exists t3. }
    destruct X as (t3 & -> & ->). destruct (iLast _ _ I t1 i a t3 eq_refl) as [[j X]|[X|[j X]]].
    + left. exists j. apply in_or_app. now left.
    + right. now left.
    + right. right. exists j. destruct (Nat.eq_dec j k) as [->|N]; [rewrite X in H1; cbn in H1; tauto|]. now rewrite (O j N).
Qed.
Lemma sv_inv t s i v : Inv t s -> Inv t (w_sv s i v).
Proof. intro I. destruct I. now constructor. Qed.
Lemma make_inv t s : Inv t s -> servers s = None -> Inv t (w_servers s (Some [])).
Proof. intros I N. assert (E : ents (w_servers s (Some [])) = ents s) by (unfold ents; cbn; now rewrite N). destruct I. constructor; rewrite ?E; assumption. Qed.
Lemma free_spec s : free s = true -> forall k, ~ holds (pcs s k) -> True.
Proof. trivial. Qed.
Lemma free_holds t s k : Inv t s -> free s = true -> ~ holds (pcs s k).
Proof. intros I F H. apply (iLock _ _ I) in H. unfold free in F. rewrite H in F. discriminate. Qed.
Lemma holds_one t s j k : Inv t s -> holds (pcs s j) -> holds (pcs s k) -> j = k.
Proof. intros I A B. apply (iLock _ _ I) in A, B. congruence. Qed.
Lemma panic_inv t s k : Inv t s -> free s = true -> pcs s k = GLock [] -> Inv (t ++ [OPanic k]) (w_pc (w_lock s (Some k)) k PPanic).
Proof.
  intros I F P.
  assert (NH : forall j, ~ holds (pcs s j)) by (intro j; now apply (free_holds t)).
  constructor; cbn [w_pc w_lock lock pcs count]; try change (ents (w_pc (w_lock s (Some k)) k PPanic)) with (ents s).
  - intros a i H. apply in_snoc. left. now apply (iMap _ _ I).
  - intros i a H. apply in_snoc in H. destruct H as [H|H]; [exact (iCnt _ _ I i a H)|discriminate].
  - intros i a b A B. apply in_snoc in A, B. destruct A as [A|A]; [|discriminate]. destruct B as [B|B]; [|discriminate]. exact (iOne _ _ I i a b A B).
  - intros j a i H. apply in_snoc. left. apply in_snoc in H. destruct H as [H|H]; [exact (iGet _ _ I j a i H)|discriminate].
  - intros j. destruct (Nat.eq_dec j k) as [->|N]; [rewrite upd_same; cbn; tauto|]. rewrite upd_other by exact N. split; [congruence|]. intro H. now apply NH in H.
  - intros j a i H. destruct (Nat.eq_dec j k) as [->|N]; [now rewrite upd_same in H|]. rewrite upd_other in H by exact N. specialize (NH j). rewrite H in NH. cbn in NH. tauto.
  - intros j i l H. destruct (Nat.eq_dec j k) as [->|N]; [rewrite upd_same in H; destruct H as [H|[x H]]; discriminate|]. rewrite upd_other in H by exact N. exact (iTodo _ _ I j i l H).
  - intros j i l H. destruct (Nat.eq_dec j k) as [->|N]; [rewrite upd_same in H; discriminate|]. rewrite upd_other in H by exact N. exact (iTh _ _ I j i l H).
  - intros i H. apply in_snoc in H. destruct H as [H|H]; [exact (iHalt _ _ I i H)|discriminate].
  - intros i a H A. apply in_snoc in H. destruct H as [H|H]; [|discriminate]. destruct (iHin _ _ I i a H A) as [j [X _]]. exfalso. apply (NH j). destruct X as [X|X]; [destruct (pcs s j); cbn in *; tauto|now rewrite X].
  - intros j. rewrite in_snoc, (iPan _ _ I). destruct (Nat.eq_dec j k) as [->|N]; [rewrite upd_same; tauto|]. rewrite upd_other by exact N. split; [|tauto]. intros [H|H]; [exact H|congruence].
  - intros j H. apply in_snoc in H. destruct H as [H|H]; [|discriminate]. pose proof (iStd _ _ I j H) as X. destruct (Nat.eq_dec j k) as [->|N]; [congruence|]. now rewrite upd_other.
  - intros j H. rewrite in_snoc in H |- *. destruct H as [H|H]; [|discriminate]. destruct (Nat.eq_dec j k) as [->|N].
    + rewrite upd_same. destruct (iStop _ _ I k H) as [X|[X|X]]; rewrite ?P in X; try (now destruct X); try discriminate; cbn; tauto.
    + rewrite upd_other by exact N. destruct (iStop _ _ I j H) as [X|[X|X]]; tauto.
  - intros j H. rewrite in_snoc in H |- *. left. apply (iIns _ _ I). destruct H as [H|[H|H]]; [|tauto|discriminate]. destruct (Nat.eq_dec j k) as [->|N]; [rewrite upd_same in H; now destruct H|]. rewrite upd_other in H by exact N. tauto.
  - intros j a H. apply in_snoc in H. destruct H as [H|H]; [|discriminate]. destruct (Nat.eq_dec j k) as [->|N]; [right; right; apply in_snoc; now right|].
    rewrite upd_other by exact N. destruct (iCall _ _ I j a H) as [X|[[i X]|X]]; [now left|right; left; exists i; apply in_snoc; now left|right; right; apply in_snoc; now left].
  - intros t1 i a t2 E. apply snoc_split in E. destruct E as [(E & _)|(t3 & -> & E)]; [discriminate|]. destruct (iLast _ _ I t1 i a t3 E) as [[j X]|[X|[j X]]].
    + left. exists j. apply in_snoc. now left.
    + right. now left.
    + specialize (NH j). rewrite X in NH. cbn in NH. tauto.
Qed.
Lemma begin_inv t s k a : Inv t s -> free s = true -> pcs s k = GLock a -> look a (servers s) = None ->
  Inv (t ++ [OStart (count s) a]) (mkSt (servers s) (Some k) (S (count s)) (upd (sv s) (count s) SvRun) (upd (pcs s) k (GStore a (count s)))).
Proof.
  intros I F P L. set (s' := mkSt _ _ _ _ _).
  assert (NH : forall j, ~ holds (pcs s j)) by (intro j; now apply (free_holds t)).
  assert (LN : forall j, ~ In (a, j) (ents s)) by (intro j; now apply look_none).
  constructor; cbn [s' w_pc w_lock lock pcs count]; try change (ents s') with (ents s).
  - intros b i H. apply in_snoc. left. now apply (iMap _ _ I).
  - intros i b H. apply in_snoc in H. destruct H as [H|H]; [pose proof (iCnt _ _ I i b H); lia|injection H as <- _; lia].
  - intros i b c A B. apply in_snoc in A, B. destruct A as [A|A], B as [B|B]; try (injection A as <- <-); try (injection B as B1 B2).
    + exact (iOne _ _ I i b c A B).
    + subst. apply (iCnt _ _ I) in A. lia.
    + apply (iCnt _ _ I) in B. lia.
    + congruence.
  - intros j b i H. apply in_snoc. left. apply in_snoc in H. destruct H as [H|H]; [exact (iGet _ _ I j b i H)|discriminate].
  - intros j. destruct (Nat.eq_dec j k) as [->|N]; [rewrite upd_same; cbn; tauto|]. rewrite upd_other by exact N. split; [congruence|]. intro H. now apply NH in H.
  - intros j b i H. destruct (Nat.eq_dec j k) as [->|N]; [|rewrite upd_other in H by exact N; specialize (NH j); rewrite H in NH; cbn in NH; tauto].
    rewrite upd_same in H. injection H as <- <-. split; [apply in_snoc; now right|]. split; [|exact LN]. intro X. apply in_snoc in X. destruct X as [X|X]; [|discriminate]. apply (iHalt _ _ I) in X. lia.
  - intros j i l H. destruct (Nat.eq_dec j k) as [->|N]; [rewrite upd_same in H; destruct H as [H|[x H]]; discriminate|]. rewrite upd_other in H by exact N. exact (iTodo _ _ I j i l H).
  - intros j i l H. destruct (Nat.eq_dec j k) as [->|N]; [rewrite upd_same in H; discriminate|]. rewrite upd_other in H by exact N. exact (iTh _ _ I j i l H).
  - intros i H. apply in_snoc in H. destruct H as [H|H]; [pose proof (iHalt _ _ I i H); lia|discriminate].
  - intros i b H A. apply in_snoc in H. destruct H as [H|H]; [|discriminate]. destruct (iHin _ _ I i b H A) as [j [X _]]. exfalso. apply (NH j). destruct X as [X|X]; [destruct (pcs s j); cbn in *; tauto|now rewrite X].
  - intros j. rewrite in_snoc, (iPan _ _ I). destruct (Nat.eq_dec j k) as [->|N].
    + rewrite upd_same. split; [intros [H|H]; congruence|discriminate].
    + rewrite upd_other by exact N. split; [|tauto]. intros [H|H]; [exact H|discriminate].
  - intros j H. apply in_snoc in H. destruct H as [H|H]; [|discriminate]. pose proof (iStd _ _ I j H) as X. destruct (Nat.eq_dec j k) as [->|N]; [congruence|]. now rewrite upd_other.
  - intros j H. rewrite in_snoc in H |- *. destruct H as [H|H]; [|discriminate]. destruct (Nat.eq_dec j k) as [->|N].
    + rewrite upd_same. destruct (iStop _ _ I k H) as [X|[X|X]]; rewrite ?P in X; try (now destruct X); try discriminate; cbn; tauto.
    + rewrite upd_other by exact N. destruct (iStop _ _ I j H) as [X|[X|X]]; tauto.
  - intros j H. rewrite in_snoc in H |- *. left. apply (iIns _ _ I). destruct H as [H|[H|H]]; [|tauto|discriminate]. destruct (Nat.eq_dec j k) as [->|N]; [rewrite upd_same in H; now destruct H|]. rewrite upd_other in H by exact N. tauto.
  - intros j b H. apply in_snoc in H. destruct H as [H|H]; [|discriminate]. destruct (iCall _ _ I j b H) as [X|[[i X]|X]]; [left|right; left; exists i; apply in_snoc; now left|right; right; apply in_snoc; now left].
    destruct (Nat.eq_dec j k) as [->|N]; [|now rewrite upd_other]. rewrite upd_same. rewrite P in X. exact X.
  - intros t1 i b t2 E. apply snoc_split in E. destruct E as [(E & _ & _)|(t3 & -> & E)].
    + injection E as <- <-. right. right. exists k. apply upd_same.
    + destruct (iLast _ _ I t1 i b t3 E) as [[j X]|[X|[j X]]].
      * left. exists j. apply in_snoc. now left.
      * right. now left.
      * specialize (NH j). rewrite X in NH. cbn in NH. tauto.
Qed.
Lemma store_inv t s k a i : Inv t s -> pcs s k = GStore a i -> Inv (t ++ [OGet k a i]) (w_pc (w_lock (w_servers s (Some (store a i (servers s)))) None) k PEnd).
Proof.
  intros I P. set (s' := w_pc _ _ _). destruct (iSto _ _ I k a i P) as (A1 & A2 & A3).
  assert (HK : holds (pcs s k)) by now rewrite P.
  assert (NH : forall j, j <> k -> ~ holds (pcs s j)) by (intros j N H; apply N; now apply (holds_one t s)).
  assert (En : ents s' = (a, i) :: ents s) by reflexivity. 
  constructor; rewrite ?En; cbn [s' w_pc w_lock w_servers lock pcs count].
  - intros b j [H|H]; apply in_snoc; left; [injection H as <- <-; exact A1|now apply (iMap _ _ I)].
  - intros j b H. apply in_snoc in H. destruct H as [H|H]; [exact (iCnt _ _ I j b H)|discriminate].
  - intros j b c A B. apply in_snoc in A, B. destruct A as [A|A]; [|discriminate]. destruct B as [B|B]; [|discriminate]. exact (iOne _ _ I j b c A B).
  - intros j b x H. apply in_snoc. left. apply in_snoc in H. destruct H as [H|H]; [exact (iGet _ _ I j b x H)|]. injection H as <- <- <-. exact A1.
  - intros j. destruct (Nat.eq_dec j k) as [->|N]; [rewrite upd_same; cbn; split; [discriminate|tauto]|]. rewrite upd_other by exact N. split; [discriminate|]. intro H. now apply NH in H.
  - intros j b x H. destruct (Nat.eq_dec j k) as [->|N]; [now rewrite upd_same in H|]. rewrite upd_other in H by exact N. specialize (NH j N). rewrite H in NH. cbn in NH. tauto.
  - intros j x l H. destruct (Nat.eq_dec j k) as [->|N]; [rewrite upd_same in H; destruct H as [H|[y H]]; discriminate|]. rewrite upd_other in H by exact N. specialize (NH j N). destruct H as [H|[y H]]; rewrite H in NH; cbn in NH; tauto.
  - intros j x l H. destruct (Nat.eq_dec j k) as [->|N]; [rewrite upd_same in H; discriminate|]. rewrite upd_other in H by exact N. specialize (NH j N). rewrite H in NH; cbn in NH; tauto.
  - intros j H. apply in_snoc in H. destruct H as [H|H]; [exact (iHalt _ _ I j H)|discriminate].
  - intros j b H X. apply in_snoc in H. destruct H as [H|H]; [|discriminate]. destruct X as [X|X]; [injection X as <- <-; contradiction|].
    destruct (iHin _ _ I j b H X) as [y [Y _]]. exfalso. destruct (Nat.eq_dec y k) as [->|N]; [rewrite P in Y; destruct Y as [Y|Y]; [exact Y|discriminate]|]. apply (NH y N). destruct Y as [Y|Y]; [destruct (pcs s y); cbn in *; tauto|now rewrite Y].
  - intros j. rewrite in_snoc, (iPan _ _ I). destruct (Nat.eq_dec j k) as [->|N].
    + rewrite upd_same. split; [intros [H|H]; congruence|discriminate].
    + rewrite upd_other by exact N. split; [|tauto]. intros [H|H]; [exact H|discriminate].
  - intros j H. apply in_snoc in H. destruct H as [H|H]; [|discriminate]. pose proof (iStd _ _ I j H) as X. destruct (Nat.eq_dec j k) as [->|N]; [congruence|]. now rewrite upd_other.
  - intros j H. rewrite in_snoc in H |- *. destruct H as [H|H]; [|discriminate]. destruct (Nat.eq_dec j k) as [->|N].
    + rewrite upd_same. destruct (iStop _ _ I k H) as [X|[X|X]]; rewrite ?P in X; try (now destruct X); try discriminate; cbn; tauto.
    + rewrite upd_other by exact N. destruct (iStop _ _ I j H) as [X|[X|X]]; tauto.
  - intros j H. rewrite in_snoc in H |- *. left. apply (iIns _ _ I). destruct H as [H|[H|H]]; [|tauto|discriminate]. destruct (Nat.eq_dec j k) as [->|N]; [rewrite upd_same in H; now destruct H|]. rewrite upd_other in H by exact N. tauto.
  - intros j b H. apply in_snoc in H. destruct H as [H|H]; [|discriminate]. destruct (iCall _ _ I j b H) as [X|[[x X]|X]]; [|right; left; exists x; apply in_snoc; now left|right; right; apply in_snoc; now left].
    destruct (Nat.eq_dec j k) as [->|N]; [|left; now rewrite upd_other]. rewrite P in X. cbn in X. subst b. right. left. exists i. apply in_snoc. now right.
  - intros t1 x b t2 E. apply snoc_split in E. destruct E as [(E & _ & _)|(t3 & -> & E)]; [discriminate|].
    destruct (iLast _ _ I t1 x b t3 E) as [[j X]|[X|[j X]]].
    + left. exists j. apply in_snoc. now left.
    + right. left. now right.
    + right. left. left. destruct (Nat.eq_dec j k) as [->|N]; [rewrite P in X; now injection X as <- <-|]. specialize (NH j N). rewrite X in NH. cbn in NH. tauto.
Qed.
(** Stop takes the lock, goes over the servers, and clears the map *)
Lemma tlock_inv t s k m : Inv t s -> free s = true -> pcs s k = TLock -> servers s = Some m -> Inv t (w_pc (w_lock s (Some k)) k (TNext (map snd m))).
Proof.
  intros I F P M. set (s' := w_pc _ _ _).
  assert (NH : forall j, ~ holds (pcs s j)) by (intro j; now apply (free_holds t)).
  constructor; try change (ents s') with (ents s); cbn [s' w_pc w_lock w_servers lock pcs count]; try apply I.
  - intros j. destruct (Nat.eq_dec j k) as [->|N]; [rewrite upd_same; cbn; tauto|]. rewrite upd_other by exact N. split; [congruence|]. intro H. now apply NH in H.
  - intros j b x H. destruct (Nat.eq_dec j k) as [->|N]; [now rewrite upd_same in H|]. rewrite upd_other in H by exact N. exact (iSto _ _ I j b x H).
  - intros j i l H Hi. destruct (Nat.eq_dec j k) as [->|N]; [|rewrite upd_other in H by exact N; exact (iTodo _ _ I j i l H Hi)]. rewrite upd_same in H.
    destruct H as [H|[x H]]; [|discriminate]. injection H as <-. apply in_map_iff in Hi. destruct Hi as ([a y] & <- & Hi). exists a. unfold ents. now rewrite M.
  - intros j x l H. destruct (Nat.eq_dec j k) as [->|N]; [now rewrite upd_same in H|]. rewrite upd_other in H by exact N. exact (iTh _ _ I j x l H).
  - intros i a H A. exists k. rewrite upd_same. split; [left; exact Logic.I|]. apply (iIns _ _ I). left. now rewrite P.
  - intros j. rewrite (iPan _ _ I). destruct (Nat.eq_dec j k) as [->|N]; [rewrite upd_same; split; congruence|]. now rewrite upd_other by exact N.
  - intros j H. pose proof (iStd _ _ I j H) as X. destruct (Nat.eq_dec j k) as [->|N]; [congruence|]. now rewrite upd_other.
  - intros j H. destruct (Nat.eq_dec j k) as [->|N]; [rewrite upd_same; cbn; tauto|]. rewrite upd_other by exact N. exact (iStop _ _ I j H).
  - intros j H. apply (iIns _ _ I). destruct (Nat.eq_dec j k) as [->|N]; [rewrite P; cbn; tauto|]. now rewrite upd_other in H by exact N.
  - intros j b H. destruct (iCall _ _ I j b H) as [X|X]; [|now right]. left. destruct (Nat.eq_dec j k) as [->|N]; [|now rewrite upd_other]. rewrite P in X. destruct X.
  - intros t1 x b t2 E. destruct (iLast _ _ I t1 x b t2 E) as [X|[X|[j X]]]; [now left|right; now left|]. exfalso. apply (NH j). now rewrite X.
Qed.
Lemma clear_inv t s k : Inv t s -> pcs s k = TNext [] -> Inv (t ++ [OStopped k]) (w_pc (w_lock (w_servers s None) None) k PEnd).
Proof.
  intros I P. set (s' := w_pc _ _ _).
  assert (HK : holds (pcs s k)) by now rewrite P.
  assert (NH : forall j, j <> k -> ~ holds (pcs s j)) by (intros j N H; apply N; now apply (holds_one t s)).
  constructor; change (ents s') with (@nil (addr * nat)); cbn [s' w_pc w_lock w_servers lock pcs count].
  - intros a i [].
  - intros i a H. apply in_snoc in H. destruct H as [H|H]; [exact (iCnt _ _ I i a H)|discriminate].
  - intros j b c A B. apply in_snoc in A, B. destruct A as [A|A]; [|discriminate]. destruct B as [B|B]; [|discriminate]. exact (iOne _ _ I j b c A B).
  - intros j b x H. apply in_snoc. left. apply in_snoc in H. destruct H as [H|H]; [exact (iGet _ _ I j b x H)|discriminate].
  - intros j. destruct (Nat.eq_dec j k) as [->|N]; [rewrite upd_same; cbn; split; [discriminate|tauto]|]. rewrite upd_other by exact N. split; [discriminate|]. intro H. now apply NH in H.
  - intros j b x H. destruct (Nat.eq_dec j k) as [->|N]; [now rewrite upd_same in H|]. rewrite upd_other in H by exact N. specialize (NH j N). rewrite H in NH. cbn in NH. tauto.
  - intros j x l H. destruct (Nat.eq_dec j k) as [->|N]; [rewrite upd_same in H; destruct H as [H|[y H]]; discriminate|]. rewrite upd_other in H by exact N. specialize (NH j N). destruct H as [H|[y H]]; rewrite H in NH; cbn in NH; tauto.
  - intros j x l H. destruct (Nat.eq_dec j k) as [->|N]; [rewrite upd_same in H; discriminate|]. rewrite upd_other in H by exact N. specialize (NH j N). rewrite H in NH; cbn in NH; tauto.
  - intros j H. apply in_snoc in H. destruct H as [H|H]; [exact (iHalt _ _ I j H)|discriminate].
  - intros j b H [].
  - intros j. rewrite in_snoc, (iPan _ _ I). destruct (Nat.eq_dec j k) as [->|N].
    + rewrite upd_same. split; [intros [H|H]; congruence|discriminate].
    + rewrite upd_other by exact N. split; [|tauto]. intros [H|H]; [exact H|discriminate].
  - intros j H. apply in_snoc in H. destruct (Nat.eq_dec j k) as [->|N]; [apply upd_same|]. rewrite upd_other by exact N. destruct H as [H|H]; [exact (iStd _ _ I j H)|congruence].
  - intros j H. rewrite in_snoc in H |- *. destruct H as [H|H]; [|discriminate]. destruct (Nat.eq_dec j k) as [->|N].
    + tauto.
    + rewrite upd_other by exact N. destruct (iStop _ _ I j H) as [X|[X|X]]; tauto.
  - intros j H. rewrite in_snoc in H |- *. left. apply (iIns _ _ I). destruct H as [H|[H|H]]; [|tauto|injection H as <-; rewrite P; cbn; tauto]. destruct (Nat.eq_dec j k) as [->|N]; [rewrite upd_same in H; now destruct H|]. rewrite upd_other in H by exact N. tauto.
  - intros j b H. apply in_snoc in H. destruct H as [H|H]; [|discriminate]. destruct (iCall _ _ I j b H) as [X|[[x X]|X]]; [|right; left; exists x; apply in_snoc; now left|right; right; apply in_snoc; now left].
    left. destruct (Nat.eq_dec j k) as [->|N]; [rewrite P in X; destruct X|]. now rewrite upd_other.
  - intros t1 x b t2 E. apply snoc_split in E. destruct E as [(E & _ & _)|(t3 & -> & E)]; [discriminate|]. left. exists k. apply in_snoc. now right.
Qed.
(** inside Stop: the next server is told, or it took the message *)
Lemma next_inv t s k o q : Inv t s -> stopping (pcs s k) -> stopping q ->
  (o = [] \/ exists i a, o = [OHalt i] /\ In (a, i) (ents s)) ->
  (forall i l, q = TNext l \/ (exists j, q = THalt j l) -> In i l -> exists a, In (a, i) (ents s)) ->
  (forall i l, q = THalt i l -> exists a, In (a, i) (ents s)) -> Inv (t ++ o) (w_pc s k q).
Proof.
  intros I P Q HO HT HH. set (s' := w_pc _ _ _).
  assert (HK : holds (pcs s k)) by (destruct (pcs s k); cbn in *; tauto).
  assert (NH : forall j, j <> k -> ~ holds (pcs s j)) by (intros j N H; apply N; now apply (holds_one t s)).
  assert (QO : forall x, In x o -> exists i a, x = OHalt i /\ In (a, i) (ents s)).
  { intros x H. destruct HO as [->|(i & a & -> & A)]; [contradiction|]. destruct H as [<-|[]]. now exists i, a. }
  assert (QT : forall x, ~ (exists i, x = OHalt i) -> (In x (t ++ o) <-> In x t)).
  { intros x N. rewrite in_app_iff. split; [|tauto]. intros [H|H]; [exact H|]. apply QO in H. destruct H as (i & a & -> & _). destruct N. now exists i. }
  constructor; try change (ents s') with (ents s); cbn [s' w_pc lock pcs count].
  - intros a i H. apply in_or_app. left. now apply (iMap _ _ I).
  - intros i a H. rewrite QT in H by (intros [x X]; discriminate). exact (iCnt _ _ I i a H).
  - intros i a b. rewrite !QT by (intros [x X]; discriminate). apply (iOne _ _ I).
  - intros j a i. rewrite !QT by (intros [x X]; discriminate). apply (iGet _ _ I).
  - intros j. destruct (Nat.eq_dec j k) as [->|N]; [|rewrite upd_other by exact N; apply (iLock _ _ I)]. rewrite upd_same. rewrite (iLock _ _ I). destruct (pcs s k), q; cbn in *; tauto.
  - intros j b x H. destruct (Nat.eq_dec j k) as [->|N]; [rewrite upd_same in H; subst q; destruct Q|]. rewrite upd_other in H by exact N. specialize (NH j N). rewrite H in NH. cbn in NH. tauto.
  - intros j i l H. destruct (Nat.eq_dec j k) as [->|N]; [rewrite upd_same in H; exact (HT i l H)|]. rewrite upd_other in H by exact N. exact (iTodo _ _ I j i l H).
  - intros j i l H. destruct (Nat.eq_dec j k) as [->|N]; [rewrite upd_same in H; exact (HH i l H)|]. rewrite upd_other in H by exact N. exact (iTh _ _ I j i l H).
  - intros i H. apply in_app_or in H. destruct H as [H|H]; [exact (iHalt _ _ I i H)|]. apply QO in H. destruct H as (j & a & X & A). injection X as ->. exact (iCnt _ _ I j a (iMap _ _ I a j A)).
  - intros i a _ _. exists k. rewrite upd_same. split; [now left|]. apply in_or_app. left. apply (iIns _ _ I). left. destruct (pcs s k); cbn in *; tauto.
  - intros j. rewrite QT by (intros [x X]; discriminate). rewrite (iPan _ _ I). destruct (Nat.eq_dec j k) as [->|N]; [rewrite upd_same; split; intro X; rewrite X in *; cbn in *; tauto|]. now rewrite upd_other by exact N.
  - intros j. rewrite QT by (intros [x X]; discriminate). intro H. pose proof (iStd _ _ I j H) as X. destruct (Nat.eq_dec j k) as [->|N]; [rewrite X in P; destruct P|]. now rewrite upd_other.
  - intros j. rewrite !QT by (intros [x X]; discriminate). intro H. destruct (Nat.eq_dec j k) as [->|N]; [|rewrite upd_other by exact N; exact (iStop _ _ I j H)]. rewrite upd_same. left. destruct q; cbn in *; tauto.
  - intros j. rewrite !QT by (intros [x X]; discriminate). intro H. apply (iIns _ _ I). destruct (Nat.eq_dec j k) as [->|N]; [|now rewrite upd_other in H by exact N]. left. destruct (pcs s k); cbn in *; tauto.
  - intros j a. rewrite !QT by (intros [x X]; discriminate). intro H. destruct (iCall _ _ I j a H) as [X|[[i X]|X]].
    + left. destruct (Nat.eq_dec j k) as [->|N]; [destruct (pcs s k); cbn in *; tauto|]. now rewrite upd_other.
    + right. left. exists i. now rewrite QT by (intros [x Y]; discriminate).
    + right. now right.
  - intros t1 x b t2 E. assert (X : exists t3, t = t1 ++ OStart x b :: t3 /\ t2 = t3 ++ o).
    { destruct HO as [->|(i & a & -> & A)]; [exists t2; now rewrite app_nil_r in *|]. apply snoc_split in E. destruct E as [(E & _)|(t3 & E1 & E2)]; [discriminate|]. now exists t3. }
    destruct X as (t3 & -> & ->). destruct (iLast _ _ I t1 x b t3 eq_refl) as [[j X]|[X|[j X]]].
    + left. exists j. apply in_or_app. now left.
    + right. now left.
    + right. right. exists j. destruct (Nat.eq_dec j k) as [->|N]; [rewrite X in P; destruct P|]. now rewrite upd_other.
Qed.
(** Stop panics in serv.Stop *)
Lemma spanic_inv t s k l : Inv t s -> pcs s k = TNext l -> Inv (t ++ [OPanic k]) (w_pc s k PPanic).
Proof.
  intros I P. set (s' := w_pc _ _ _).
  assert (HK : holds (pcs s k)) by now rewrite P.
  assert (NH : forall j, j <> k -> ~ holds (pcs s j)) by (intros j N H; apply N; now apply (holds_one t s)).
  constructor; try change (ents s') with (ents s); cbn [s' w_pc lock pcs count].
  - intros a i H. apply in_snoc. left. now apply (iMap _ _ I).
  - intros i a H. apply in_snoc in H. destruct H as [H|H]; [exact (iCnt _ _ I i a H)|discriminate].
  - intros i a b A B. apply in_snoc in A, B. destruct A as [A|A]; [|discriminate]. destruct B as [B|B]; [|discriminate]. exact (iOne _ _ I i a b A B).
  - intros j a i H. apply in_snoc. left. apply in_snoc in H. destruct H as [H|H]; [exact (iGet _ _ I j a i H)|discriminate].
  - intros j. rewrite (iLock _ _ I). destruct (Nat.eq_dec j k) as [->|N]; [rewrite upd_same, P; cbn; tauto|]. now rewrite upd_other by exact N.
  - intros j a i H. destruct (Nat.eq_dec j k) as [->|N]; [now rewrite upd_same in H|]. rewrite upd_other in H by exact N. specialize (NH j N). rewrite H in NH. cbn in NH. tauto.
  - intros j i l' H. destruct (Nat.eq_dec j k) as [->|N]; [rewrite upd_same in H; destruct H as [H|[x H]]; discriminate|]. rewrite upd_other in H by exact N. exact (iTodo _ _ I j i l' H).
  - intros j i l' H. destruct (Nat.eq_dec j k) as [->|N]; [rewrite upd_same in H; discriminate|]. rewrite upd_other in H by exact N. exact (iTh _ _ I j i l' H).
  - intros i H. apply in_snoc in H. destruct H as [H|H]; [exact (iHalt _ _ I i H)|discriminate].
  - intros i a _ _. exists k. rewrite upd_same. split; [now right|]. apply in_snoc. left. apply (iIns _ _ I). left. now rewrite P.
  - intros j. rewrite in_snoc, (iPan _ _ I). destruct (Nat.eq_dec j k) as [->|N]; [rewrite upd_same; tauto|]. rewrite upd_other by exact N. split; [|tauto]. intros [H|H]; [exact H|congruence].
  - intros j H. apply in_snoc in H. destruct H as [H|H]; [|discriminate]. pose proof (iStd _ _ I j H) as X. destruct (Nat.eq_dec j k) as [->|N]; [congruence|]. now rewrite upd_other.
  - intros j H. rewrite in_snoc in H |- *. destruct H as [H|H]; [|discriminate]. destruct (Nat.eq_dec j k) as [->|N]; [rewrite upd_same; tauto|].
    rewrite upd_other by exact N. destruct (iStop _ _ I j H) as [X|[X|X]]; tauto.
  - intros j H. rewrite in_snoc in H |- *. left. apply (iIns _ _ I). destruct H as [H|[H|H]]; [|tauto|discriminate]. destruct (Nat.eq_dec j k) as [->|N]; [rewrite upd_same in H; now destruct H|]. rewrite upd_other in H by exact N. tauto.
  - intros j a H. apply in_snoc in H. destruct H as [H|H]; [|discriminate]. destruct (Nat.eq_dec j k) as [->|N]; [right; right; apply in_snoc; now right|].
    rewrite upd_other by exact N. destruct (iCall _ _ I j a H) as [X|[[i X]|X]]; [now left|right; left; exists i; apply in_snoc; now left|right; right; apply in_snoc; now left].
  - intros t1 i a t2 E. apply snoc_split in E. destruct E as [(E & _)|(t3 & -> & E)]; [discriminate|]. destruct (iLast _ _ I t1 i a t3 E) as [[j X]|[X|[j X]]].
    + left. exists j. apply in_snoc. now left.
    + right. now left.
    + right. right. exists j. destruct (Nat.eq_dec j k) as [->|N]; [congruence|]. now rewrite upd_other.
Qed.
Lemma same_inv t s : Inv t s -> Inv (t ++ []) s.
Proof. now rewrite app_nil_r. Qed.
Lemma step_inv t s e o s' : Inv t s -> step s e = (o, s') -> Inv (t ++ o) s'.
Proof.
  intros I. destruct e as [k a|k|k i|k|k i|k|i]; cbn [step].
  - destruct (pcs s k) eqn:P; intro E; injection E as <- <-; try (apply same_inv; exact I).
    apply move_inv; rewrite ?P; cbn; try tauto; try discriminate; auto.
  - destruct (pcs s k) eqn:P; intro E; injection E as <- <-; try (apply same_inv; exact I).
    apply move_inv; rewrite ?P; cbn; try tauto; try discriminate; auto.
  - destruct (pcs s k) eqn:P; destruct (sv s i); intro E; injection E as <- <-; try (apply same_inv; exact I);
      (apply move_inv; [try exact I; now apply sv_inv|..]; cbn [w_sv pcs]; rewrite ?P; cbn; try tauto; try discriminate; auto).
  - unfold step_go. destruct (pcs s k) as [|a|a|a|a|a i| |l|j l|j| |] eqn:P; try (intro E; injection E as <- <-; apply same_inv; exact I).
    + intro E; injection E as <- <-. apply move_inv; rewrite ?P; destruct (servers s); cbn; try tauto; try discriminate; auto.
    + destruct (free s) eqn:F; [|intro E; injection E as <- <-; apply same_inv; exact I]. intro E; injection E as <- <-.
      destruct (servers s) eqn:M; (apply move_inv; [try exact I; now apply make_inv|..]); cbn; rewrite ?P; cbn; try tauto; try discriminate; auto.
    + destruct (look a (servers s)) as [i|] eqn:L; intro E; injection E as <- <-; apply move_inv; rewrite ?P; cbn; try tauto; try discriminate; auto.
      * split; [reflexivity|]. now apply look_in.
      * intros b ->. right. now exists i.
    + destruct (free s) eqn:F; [|intro E; injection E as <- <-; apply same_inv; exact I]. destruct (look a (servers s)) as [i|] eqn:L.
      * intro E; injection E as <- <-; apply move_inv; rewrite ?P; cbn; try tauto; try discriminate; auto.
        -- split; [reflexivity|]. now apply look_in.
        -- intros b ->. right. now exists i.
      * destruct a as [|z a]; intro E; injection E as <- <-; [now apply panic_inv|now apply begin_inv].
    + intro E; injection E as <- <-. now apply store_inv.
    + destruct (free s) eqn:F; [|intro E; injection E as <- <-; apply same_inv; exact I]. destruct (servers s) as [m|] eqn:M; intro E; injection E as <- <-.
      * apply same_inv. now apply tlock_inv.
      * apply move_inv; rewrite ?P; cbn; try tauto; try discriminate; auto.
    + destruct l as [|x l]; intro E; injection E as <- <-; [now apply clear_inv|apply same_inv; exact I].
  - destruct (pcs s k) as [|a|a|a|a|a x| |l|j l|j| |] eqn:P; try (intro E; injection E as <- <-; apply same_inv; exact I).
    destruct (mem i l) eqn:M; [|intro E; injection E as <- <-; apply same_inv; exact I]. apply mem_in in M. destruct (iTodo _ _ I k i l (or_introl P) M) as [a A].
    destruct (sv s i) eqn:V; intro E; injection E as <- <-; try (now apply (spanic_inv t s k l)).
    apply next_inv; [now apply sv_inv|cbn [w_sv pcs]; rewrite ?P; cbn; trivial..].
    + right. now exists i, a.
    + intros x l' [E|[j E]] Hx; [discriminate|]. injection E as _ <-. apply in_del in Hx. exact (iTodo _ _ I k x l (or_introl P) (proj1 Hx)).
    + intros x l' E. injection E as <- _. now exists a.
  - destruct (pcs s k) as [|a|a|a|a|a x| |l|j l|j| |] eqn:P; try (intro E; injection E as <- <-; apply same_inv; exact I).
    + destruct (sv s j); intro E; injection E as <- <-; try (apply same_inv; exact I).
      apply next_inv; [now apply sv_inv|cbn; now rewrite P|exact Logic.I|now left| |].
      * intros x l' [E|[y E]] Hx; [|discriminate]. injection E as <-. exact (iTodo _ _ I k x l (or_intror (ex_intro _ j P)) Hx).
      * intros x l' E. discriminate.
    + destruct (sv s j); intro E; injection E as <- <-; try (apply same_inv; exact I). apply move_inv; [now apply sv_inv|..]; cbn; rewrite ?P; cbn; try tauto; try discriminate; auto.
  - destruct (sv s i); intro E; injection E as <- <-; apply same_inv; try exact I. now apply sv_inv.
Qed.
Lemma start_inv es t s : start es = (t, s) -> Inv t s.
Proof. intro E. exact (run_inv Inv step_inv es [] s_init t s init_inv E). Qed.

(** ** Calls return *)
Record Live (s : st) : Prop := mkLive {
  lP : forall k, pcs s k <> PPanic /\ (forall i, pcs s k <> UHalt i) /\ ~ getting [] (pcs s k);
  lN : forall k l i, pcs s k = TNext l -> In i l -> sv s i = SvRun;
  lH : forall k j l, pcs s k = THalt j l -> sv s j = SvTold /\ forall i, In i l -> sv s i = SvRun /\ i <> j;
  lG : forall k a i, pcs s k = GStore a i -> sv s i = SvRun;
  lM : forall a i, In (a, i) (ents s) -> (forall k, ~ stopping (pcs s k)) -> sv s i = SvRun }.
Lemma init_live : Live s_init.
Proof. constructor; cbn; intros; try discriminate; try contradiction. split; [discriminate|]. split; [discriminate|tauto]. Qed.
Definition gentle (e : ev) : Prop := match e with Get _ [] | Halt _ _ => False | _ => True end.
(** only goroutine k moves, outside of the critical sections *)
Lemma move_live s k q : Live s -> ~ stopping (pcs s k) -> ~ holds q -> (forall i, q <> UHalt i) -> ~ getting [] q -> Live (w_pc s k q).
Proof.
  intros L S N U G. constructor; cbn [w_pc pcs sv].
  - intro j. destruct (Nat.eq_dec j k) as [->|D]; [rewrite upd_same; split; [intro X; rewrite X in N; now apply N|now split]|]. rewrite upd_other by exact D. apply (lP _ L).
  - intros j l i H. destruct (Nat.eq_dec j k) as [->|D]; [rewrite upd_same in H; subst q; cbn in N; tauto|]. rewrite upd_other in H by exact D. apply (lN _ L j l i H).
  - intros j x l H. destruct (Nat.eq_dec j k) as [->|D]; [rewrite upd_same in H; subst q; cbn in N; tauto|]. rewrite upd_other in H by exact D. apply (lH _ L j x l H).
  - intros j a i H. destruct (Nat.eq_dec j k) as [->|D]; [rewrite upd_same in H; subst q; cbn in N; tauto|]. rewrite upd_other in H by exact D. apply (lG _ L j a i H).
  - intros a i H NS. apply (lM _ L a i H). intros j X. destruct (Nat.eq_dec j k) as [->|D]; [contradiction|]. apply (NS j). now rewrite upd_other.
Qed.
Lemma live_ext s s' : sv s' = sv s -> pcs s' = pcs s -> ents s' = ents s -> Live s -> Live s'.
Proof. intros A B C []. constructor; rewrite ?A, ?B, ?C; assumption. Qed.
Lemma step_live t s e o s' : Inv t s -> Live s -> gentle e -> step s e = (o, s') -> Live s'.
Proof.
  intros I L G. destruct e as [k a|k|k i|k|k i|k|i]; cbn [step].
  - destruct (pcs s k) eqn:P; intro E; injection E as <- <-; try exact L. apply move_live; rewrite ?P; cbn; try tauto; try discriminate. intros ->. exact G.
  - destruct (pcs s k) eqn:P; intro E; injection E as <- <-; try exact L. apply move_live; rewrite ?P; cbn; try tauto; try discriminate.
  - destruct G.
  - unfold step_go. pose proof (lP _ L k) as (_ & _ & LG). destruct (pcs s k) as [|a|a|a|a|a i| |l|j l|j| |] eqn:P; try (intro E; injection E as <- <-; exact L); cbn in LG.
    + intro E; injection E as <- <-. destruct (servers s); (apply move_live; rewrite ?P; cbn; try tauto; try discriminate).
    + destruct (free s); intro E; injection E as <- <-; [|exact L].
      assert (L' : Live (match servers s with None => w_servers s (Some []) | Some _ => s end)).
      { destruct (servers s) eqn:M; [exact L|]. apply (live_ext s); try reflexivity; [|exact L]. unfold ents. cbn. now rewrite M. }
      apply move_live; [exact L'| | | |]; try (cbn; tauto); try discriminate. destruct (servers s); cbn; now rewrite P.
    + destruct (look a (servers s)); intro E; injection E as <- <-; (apply move_live; rewrite ?P; cbn; try tauto; try discriminate).
    + destruct (free s) eqn:F; [|intro E; injection E as <- <-; exact L]. destruct (look a (servers s)).
      * intro E; injection E as <- <-; (apply move_live; rewrite ?P; cbn; try tauto; try discriminate).
      * destruct a as [|z a]; [tauto|]. intro E; injection E as <- <-. set (i := count s).
        assert (NH : forall j, ~ holds (pcs s j)) by (intro j; now apply (free_holds t)).
        constructor; cbn [pcs sv]; intros *.
        -- destruct (Nat.eq_dec k0 k) as [->|D]; [rewrite upd_same; cbn; repeat split; try discriminate|]. rewrite upd_other by exact D. apply (lP _ L).
        -- destruct (Nat.eq_dec k0 k) as [->|D]; [rewrite upd_same; discriminate|]. rewrite upd_other by exact D. intros X. specialize (NH k0). rewrite X in NH. cbn in NH. tauto.
        -- destruct (Nat.eq_dec k0 k) as [->|D]; [rewrite upd_same; discriminate|]. rewrite upd_other by exact D. intros X. specialize (NH k0). rewrite X in NH. cbn in NH. tauto.
        -- destruct (Nat.eq_dec k0 k) as [->|D]; [rewrite upd_same; intro X; injection X as <- <-; apply upd_same|]. rewrite upd_other by exact D. intros X. specialize (NH k0). rewrite X in NH. cbn in NH. tauto.
        -- intros H NS. change (In (a0, i0) (ents s)) in H. pose proof (iCnt _ _ I _ _ (iMap _ _ I _ _ H)). rewrite upd_other by (subst i; lia). apply (lM _ L a0 i0 H).
           intros j X. apply (NH j). destruct (pcs s j); cbn in *; tauto.
    + intro E; injection E as <- <-.
      assert (HK : holds (pcs s k)) by now rewrite P.
      assert (NH : forall j, j <> k -> ~ holds (pcs s j)) by (intros j N H; apply N; now apply (holds_one t s)).
      constructor; cbn [w_pc w_lock w_servers pcs sv]; intros *.
      * destruct (Nat.eq_dec k0 k) as [->|D]; [rewrite upd_same; cbn; repeat split; try discriminate; tauto|]. rewrite upd_other by exact D. apply (lP _ L).
      * destruct (Nat.eq_dec k0 k) as [->|D]; [rewrite upd_same; discriminate|]. rewrite upd_other by exact D. intros X. specialize (NH k0 D). rewrite X in NH. cbn in NH. tauto.
      * destruct (Nat.eq_dec k0 k) as [->|D]; [rewrite upd_same; discriminate|]. rewrite upd_other by exact D. intros X. specialize (NH k0 D). rewrite X in NH. cbn in NH. tauto.
      * destruct (Nat.eq_dec k0 k) as [->|D]; [rewrite upd_same; discriminate|]. rewrite upd_other by exact D. intros X. specialize (NH k0 D). rewrite X in NH. cbn in NH. tauto.
      * intros H NS. change (In (a0, i0) ((a, i) :: ents s)) in H. destruct H as [H|H]; [injection H as <- <-; exact (lG _ L k a i P)|]. apply (lM _ L a0 i0 H).
        intros j X. destruct (Nat.eq_dec j k) as [->|D]; [rewrite P in X; exact X|]. apply (NH j D). destruct (pcs s j); cbn in *; tauto.
    + destruct (free s) eqn:F; [|intro E; injection E as <- <-; exact L]. destruct (servers s) as [m|] eqn:M; intro E; injection E as <- <-; [|apply move_live; rewrite ?P; cbn; try tauto; try discriminate].
      assert (NH : forall j, ~ holds (pcs s j)) by (intro j; now apply (free_holds t)).
      constructor; cbn [w_pc w_lock w_servers pcs sv]; intros *.
      * destruct (Nat.eq_dec k0 k) as [->|D]; [rewrite upd_same; cbn; repeat split; try discriminate; tauto|]. rewrite upd_other by exact D. apply (lP _ L).
      * destruct (Nat.eq_dec k0 k) as [->|D].
        -- rewrite upd_same. intro X. injection X as <-. intro Hi. apply in_map_iff in Hi. destruct Hi as ([a y] & <- & Hi). apply (lM _ L a y); [unfold ents; now rewrite M|].
           intros j X. apply (NH j). destruct (pcs s j); cbn in *; tauto.
        -- rewrite upd_other by exact D. intros X. specialize (NH k0). rewrite X in NH. cbn in NH. tauto.
      * destruct (Nat.eq_dec k0 k) as [->|D]; [rewrite upd_same; discriminate|]. rewrite upd_other by exact D. apply (lH _ L).
      * destruct (Nat.eq_dec k0 k) as [->|D]; [rewrite upd_same; discriminate|]. rewrite upd_other by exact D. apply (lG _ L).
      * intros H NS. exfalso. apply (NS k). now rewrite upd_same.
    + destruct l as [|x l]; intro E; injection E as <- <-; [|exact L].
      assert (HK : holds (pcs s k)) by now rewrite P.
      assert (NH : forall j, j <> k -> ~ holds (pcs s j)) by (intros j N H; apply N; now apply (holds_one t s)).
      constructor; cbn [w_pc w_lock w_servers pcs sv]; intros *.
      * destruct (Nat.eq_dec k0 k) as [->|D]; [rewrite upd_same; cbn; repeat split; try discriminate; tauto|]. rewrite upd_other by exact D. apply (lP _ L).
      * destruct (Nat.eq_dec k0 k) as [->|D]; [rewrite upd_same; discriminate|]. rewrite upd_other by exact D. intros X. specialize (NH k0 D). rewrite X in NH. cbn in NH. tauto.
      * destruct (Nat.eq_dec k0 k) as [->|D]; [rewrite upd_same; discriminate|]. rewrite upd_other by exact D. intros X. specialize (NH k0 D). rewrite X in NH. cbn in NH. tauto.
      * destruct (Nat.eq_dec k0 k) as [->|D]; [rewrite upd_same; discriminate|]. rewrite upd_other by exact D. intros X. specialize (NH k0 D). rewrite X in NH. cbn in NH. tauto.
      * intros [].
  - destruct (pcs s k) as [|a|a|a|a|a x| |l|j l|j| |] eqn:P; try (intro E; injection E as <- <-; exact L).
    destruct (mem i l) eqn:M; [|intro E; injection E as <- <-; exact L]. apply mem_in in M. rewrite (lN _ L k l i P M). intro E; injection E as <- <-.
    assert (HK : holds (pcs s k)) by now rewrite P.
    assert (NH : forall j, j <> k -> ~ holds (pcs s j)) by (intros y N H; apply N; now apply (holds_one t s)).
    constructor; cbn [w_pc w_sv w_lock w_servers pcs sv]; intros *.
    + destruct (Nat.eq_dec k0 k) as [->|D]; [rewrite upd_same; cbn; repeat split; try discriminate; tauto|]. rewrite upd_other by exact D. apply (lP _ L).
    + destruct (Nat.eq_dec k0 k) as [->|D]; [rewrite upd_same; discriminate|]. rewrite upd_other by exact D. intros X. specialize (NH k0 D). rewrite X in NH. cbn in NH. tauto.
    + destruct (Nat.eq_dec k0 k) as [->|D]; [|rewrite upd_other by exact D; intros X; specialize (NH k0 D); rewrite X in NH; cbn in NH; tauto]. rewrite upd_same. intro X. injection X as <- <-. split; [apply upd_same|].
      intros y Hy. apply in_del in Hy. split; [|exact (proj2 Hy)]. rewrite upd_other by exact (proj2 Hy). exact (lN _ L k l y P (proj1 Hy)).
    + destruct (Nat.eq_dec k0 k) as [->|D]; [rewrite upd_same; discriminate|]. rewrite upd_other by exact D. intros X. specialize (NH k0 D). rewrite X in NH. cbn in NH. tauto.
    + intros H NS. exfalso. apply (NS k). now rewrite upd_same.
  - destruct (pcs s k) as [|a|a|a|a|a x| |l|j l|j| |] eqn:P; try (intro E; injection E as <- <-; exact L).
    + rewrite (proj1 (lH _ L k j l P)). intro E; injection E as <- <-.
      assert (HK : holds (pcs s k)) by now rewrite P.
      assert (NH : forall j, j <> k -> ~ holds (pcs s j)) by (intros y N H; apply N; now apply (holds_one t s)).
      constructor; cbn [w_pc w_sv pcs sv]; intros *.
      * destruct (Nat.eq_dec k0 k) as [->|D]; [rewrite upd_same; cbn; repeat split; try discriminate; tauto|]. rewrite upd_other by exact D. apply (lP _ L).
      * destruct (Nat.eq_dec k0 k) as [->|D].
        -- rewrite upd_same. intro X. injection X as <-. intro Hi. destruct (proj2 (lH _ L k j l P) i Hi) as [A B]. now rewrite upd_other.
        -- rewrite upd_other by exact D. intros X. specialize (NH k0 D). rewrite X in NH. cbn in NH. tauto.
      * destruct (Nat.eq_dec k0 k) as [->|D]; [rewrite upd_same; discriminate|]. rewrite upd_other by exact D. intros X. specialize (NH k0 D). rewrite X in NH. cbn in NH. tauto.
      * destruct (Nat.eq_dec k0 k) as [->|D]; [rewrite upd_same; discriminate|]. rewrite upd_other by exact D. intros X. specialize (NH k0 D). rewrite X in NH. cbn in NH. tauto.
      * intros H NS. exfalso. apply (NS k). now rewrite upd_same.
    + destruct (lP _ L k) as (_ & X & _). now destruct (X j).
  - destruct (sv s i) eqn:V; intro E; injection E as <- <-; try exact L.
    assert (K : forall j, sv s j = SvRun -> upd (sv s) i SvEnded j = SvRun) by (intros j H; rewrite upd_other; [exact H|congruence]).
    constructor; cbn [w_sv pcs sv].
    + apply (lP _ L).
    + intros k l j P H. apply K. exact (lN _ L k l j P H).
    + intros k j l P. destruct (lH _ L k j l P) as [A B]. split; [rewrite upd_other; [exact A|congruence]|]. intros x Hx. destruct (B x Hx). split; [now apply K|assumption].
    + intros k a j P. apply K. exact (lG _ L k a j P).
    + intros a j H N. apply K. exact (lM _ L a j H N).
Qed.
Lemma start_live es t s : disciplined es -> start es = (t, s) -> Live s.
Proof.
  intros D E. unfold start in E. assert (X : forall es t0 s0 t s, disciplined es -> Inv t0 s0 -> Live s0 -> run s0 es = (t, s) -> Live s).
  { clear. induction es as [|e es IH]; intros t0 s0 t s D I L; cbn [run].
    - intro E. injection E as <- <-. exact L.
    - destruct (step s0 e) as [o1 s1] eqn:E1. destruct (run s1 es) as [o2 s2] eqn:E2. intro E. injection E as <- <-.
      apply (IH (t0 ++ o1) s1 o2 s2); [intros x Hx; apply D; now right|exact (step_inv _ _ _ _ _ I E1)| |exact E2].
      apply (step_live t0 s0 e o1 s1 I L); [|exact E1]. specialize (D e (or_introl eq_refl)). destruct e as [k [|]| | | | | |]; cbn in *; tauto. }
  exact (X es [] s_init t s D init_inv init_live E).
Qed.
Lemma pc_moves s k q (o : list obs) : q <> pcs s k -> (o, w_pc s k q) <> ([], s).
Proof. intros N E. assert (X : pcs (w_pc s k q) k = pcs s k) by congruence. cbn in X. rewrite upd_same in X. contradiction. Qed.
(** whoever has the lock can go on *)
Lemma holder_moves t s k : Inv t s -> Live s -> holds (pcs s k) -> exists e, internal e /\ step s e <> ([], s).
Proof.
  intros I L H. destruct (pcs s k) as [|a|a|a|a|a i| |l|j l|j| |] eqn:P; try (now destruct H).
  - exists (Go k). split; [exact Logic.I|]. cbn [step]. unfold step_go. rewrite P. discriminate.
  - destruct l as [|i l].
    + exists (Go k). split; [exact Logic.I|]. cbn [step]. unfold step_go. rewrite P. discriminate.
    + exists (Next k i). split; [exact Logic.I|]. cbn [step]. rewrite P. cbn [mem existsb]. rewrite Nat.eqb_refl. cbn [orb]. destruct (sv s i); discriminate.
  - exists (Take k). split; [exact Logic.I|]. cbn [step]. rewrite P, (proj1 (lH _ L k j l P)).
    intro E. apply (f_equal (fun p => pcs (snd p) k)) in E. cbn in E. rewrite upd_same, P in E. discriminate.
  - destruct (lP _ L k) as [X _]. contradiction.
Qed.
Lemma quiet_ends t s : Inv t s -> Live s -> quiet s -> forall k, pcs s k = PNew \/ pcs s k = PEnd.
Proof.
  intros I L Q k.
  assert (NH : forall j, ~ holds (pcs s j)). { intros j H. destruct (holder_moves t s j I L H) as (e & A & B). now apply B, Q. }
  assert (F : free s = true). { unfold free. destruct (lock s) as [j|] eqn:K; [|reflexivity]. apply (iLock _ _ I) in K. now apply NH in K. }
  pose proof (Q (Go k) Logic.I) as E. cbn [step] in E. unfold step_go in E. rewrite F in E.
  destruct (pcs s k) as [|a|a|a|a|a i| |l|j l|j| |] eqn:P; try (left; reflexivity); try (right; reflexivity); exfalso.
  - apply (pc_moves s k (match servers s with None => GMake a | Some _ => GLook a end) []); [|exact E]. rewrite P. destruct (servers s); discriminate.
  - assert (X : pcs (snd (@nil obs, s)) k = GLook a) by (rewrite <- E; cbn; destruct (servers s); cbn; apply upd_same). cbn in X. congruence.
  - destruct (look a (servers s)); [discriminate|]. apply (pc_moves s k (GLock a) []); [|exact E]. rewrite P. discriminate.
  - destruct (look a (servers s)); [discriminate|]. destruct a; discriminate.
  - apply (NH k). now rewrite P.
  - destruct (servers s); [|discriminate]. apply (f_equal (fun p => pcs (snd p) k)) in E. cbn in E. rewrite upd_same, P in E. discriminate.
  - apply (NH k). now rewrite P.
  - apply (NH k). now rewrite P.
  - destruct (lP _ L k) as (_ & X & _). now apply (X j).
  - destruct (lP _ L k) as (X & _). contradiction.
Qed.

(** ** Calls take a bounded number of steps *)
Definition weight (M : nat) (p : pc) : nat :=
  match p with
  | PNew | PEnd | PPanic => 0
  | GNil _ => 5 | GMake _ => 4 | GLook _ => 3 | GLock _ => 2 | GStore _ _ => 1
  | TLock => 2 + 2 * M
  | TNext l => 1 + 2 * length l
  | THalt _ l => 2 + 2 * length l
  | UHalt _ => 1
  end.
(** Gets that may still add a server *)
Definition pend (p : pc) : nat := match p with GNil _ | GMake _ | GLook _ | GLock _ | GStore _ _ => 1 | _ => 0 end.
Fixpoint sum (f : nat -> nat) (b : nat) : nat := match b with 0 => 0 | S b => f b + sum f b end.
Lemma sum_ext f g b : (forall k, k < b -> f k = g k) -> sum f b = sum g b.
Proof. induction b as [|b IH]; intro H; cbn; [reflexivity|]. rewrite IH by (intros; apply H; lia). rewrite (H b) by lia. reflexivity. Qed.
Lemma sum_upd (w : pc -> nat) (f : nat -> pc) k q b : k < b -> sum (fun j => w (upd f k q j)) b + w (f k) = sum (fun j => w (f j)) b + w q.
Proof.
  induction b as [|b IH]; intro H; [lia|]. cbn [sum]. destruct (Nat.eq_dec k b) as [->|N].
  - rewrite upd_same. rewrite (sum_ext (fun j => w (upd f b q j)) (fun j => w (f j)) b); [lia|]. intros j Hj. rewrite upd_other; [reflexivity|lia].
  - rewrite upd_other by lia. specialize (IH ltac:(lia)). lia.
Qed.
Lemma del_length i l : In i l -> length (del i l) < length l.
Proof. apply remove_length_lt. Qed.
Definition below (B : nat) (s : st) : Prop := forall k, B <= k -> pcs s k = PNew.
Definition rank (B M : nat) (s : st) : nat := sum (fun k => weight M (pcs s k)) B.
Definition room (B : nat) (s : st) : nat := length (ents s) + sum (fun k => pend (pcs s k)) B.
Lemma step_rank B M s e : below B s -> room B s <= M -> internal e -> step s e <> ([], s) ->
  below B (snd (step s e)) /\ room B (snd (step s e)) <= M /\ rank B M (snd (step s e)) < rank B M s.
Proof.
  intros HB HR HI HS.
  assert (MV : forall k q s', pcs s k <> PNew -> pcs s' = upd (pcs s) k q -> weight M q < weight M (pcs s k) -> length (ents s') + pend q <= length (ents s) + pend (pcs s k) ->
             below B s' /\ room B s' <= M /\ rank B M s' < rank B M s).
  { intros k q s' NN E W P. assert (KB : k < B) by (destruct (le_lt_dec B k) as [X|X]; [now apply HB in X|exact X]).
    split; [|split].
    - intros j Hj. rewrite E, upd_other by lia. now apply HB.
    - unfold room in *. rewrite E. pose proof (sum_upd pend (pcs s) k q B KB). lia.
    - unfold rank. rewrite E. pose proof (sum_upd (weight M) (pcs s) k q B KB). lia. }
  assert (RM : length (ents s) <= M) by (unfold room in HR; lia).
  destruct e as [k a|k|k i|k|k i|k|i]; try (now destruct HI); cbn [step] in *.
  - unfold step_go in *. destruct (pcs s k) as [|a|a|a|a|a i| |l|j l|j| |] eqn:P; try (now destruct HS).
    + apply (MV k (match servers s with None => GMake a | Some _ => GLook a end)); rewrite ?P; try discriminate; try reflexivity; destruct (servers s) eqn:V; unfold ents; cbn; rewrite ?V; lia.
    + destruct (free s); [|now destruct HS]. apply (MV k (GLook a)); rewrite ?P; try discriminate; destruct (servers s) eqn:V; try reflexivity; unfold ents; cbn; rewrite ?V; cbn; lia.
    + destruct (look a (servers s)); [apply (MV k PEnd)|apply (MV k (GLock a))]; rewrite ?P; try discriminate; try reflexivity; cbn; unfold ents; cbn; lia.
    + destruct (free s); [|now destruct HS]. destruct (look a (servers s)); [apply (MV k PEnd); rewrite ?P; try discriminate; try reflexivity; cbn; unfold ents; cbn; lia|].
      destruct a as [|z a]; [apply (MV k PPanic)|apply (MV k (GStore (z :: a) (count s)))]; rewrite ?P; try discriminate; try reflexivity; cbn; unfold ents; cbn; lia.
    + apply (MV k PEnd); rewrite ?P; try discriminate; try reflexivity; [cbn; lia|].
      change (S (length (ents s)) + 0 <= length (ents s) + 1). lia.
    + destruct (free s); [|now destruct HS]. destruct (servers s) as [m|] eqn:V.
      * apply (MV k (TNext (map snd m))); rewrite ?P; try discriminate; try reflexivity; unfold ents in *; cbn; rewrite ?V in *; rewrite ?map_length; cbn; lia.
      * apply (MV k PEnd); rewrite ?P; try discriminate; try reflexivity; cbn; unfold ents; cbn; lia.
    + destruct l; [|now destruct HS]. apply (MV k PEnd); rewrite ?P; try discriminate; try reflexivity; cbn; unfold ents; cbn; lia.
  - destruct (pcs s k) as [|a|a|a|a|a x| |l|j l|j| |] eqn:P; try (now destruct HS). destruct (mem i l) eqn:V; [|now destruct HS]. apply mem_in in V. pose proof (del_length i l V).
    destruct (sv s i); [apply (MV k PPanic)|apply (MV k (THalt i (del i l)))|apply (MV k PPanic)|apply (MV k PPanic)|apply (MV k PPanic)]; rewrite ?P; try discriminate; try reflexivity; cbn; unfold ents; cbn; lia.
  - destruct (pcs s k) as [|a|a|a|a|a x| |l|j l|j| |] eqn:P; try (now destruct HS); (destruct (sv s j); try (now destruct HS)).
    + apply (MV k (TNext l)); rewrite ?P; try discriminate; try reflexivity; cbn; unfold ents; cbn; lia.
    + apply (MV k PEnd); rewrite ?P; try discriminate; try reflexivity; cbn; unfold ents; cbn; lia.
Qed.
Lemma productive_bound B M es : forall s, below B s -> room B s <= M -> productive s es -> length es <= rank B M s.
Proof.
  induction es as [|e es IH]; intros s HB HR; cbn [productive length]; [lia|]. intros (A & C & D).
  destruct (step_rank B M s e HB HR A C) as (X & Y & Z). specialize (IH _ X Y D). lia.
Qed.
Lemma run_below es : forall s t s' B, below B s -> run s es = (t, s') -> exists B', below B' s'.
Proof.
  induction es as [|e es IH]; intros s t s' B HB; cbn [run].
  - intro E. injection E as <- <-. now exists B.
  - destruct (step s e) as [o1 s1] eqn:E1. destruct (run s1 es) as [o2 s2] eqn:E2. intro E. injection E as <- <-.
    assert (X : exists k, forall j, j <> k -> pcs s1 j = pcs s j).
    { clear -E1. destruct e as [k a|k|k i|k|k i|k|i]; cbn [step] in E1; unfold step_go in E1; [exists k|exists k|exists k|exists k|exists k|exists k|exists 0];
        repeat match goal with E : context [match ?x with _ => _ end] |- _ => destruct x end; injection E1 as <- <-; intros j N; cbn; try reflexivity; now apply upd_other. }
    destruct X as [k X]. apply (IH s1 o2 s2 (B + S k)); [|exact E2]. intros j Hj. rewrite X by lia. apply HB. lia.
Qed.
(** the lock is held by a goroutine that panicked *)
Definition wedged (s : st) (k : nat) : Prop := pcs s k = PPanic.
Ltac noobs := let X := fresh in split; [intros ? ? X; cbn in X; first [contradiction|destruct X as [X|X]; [discriminate|contradiction]]|intros ? X; cbn in X; first [contradiction|destruct X as [X|X]; [discriminate|contradiction]]].
Lemma step_wedged t s k e o s' : Inv t s -> wedged s k -> step s e = (o, s') -> wedged s' k /\ (forall i a, ~ In (OStart i a) o) /\ (forall j, ~ In (OStopped j) o).
Proof.
  intros I W. unfold wedged in *. assert (H : holds (pcs s k)) by now rewrite W. assert (F : free s = false) by (unfold free; apply (iLock _ _ I) in H; now rewrite H).
  assert (NH : forall j, j <> k -> ~ holds (pcs s j)) by (intros y N X; apply N; now apply (holds_one t s)).
  assert (ND : forall j, holds (pcs s j) -> pcs s j = PPanic) by (intros j X; destruct (Nat.eq_dec j k) as [->|N]; [exact W|now apply NH in X]).
  assert (KEEP : forall j q, pcs s j <> PPanic -> upd (pcs s) j q k = PPanic) by (intros j q N; rewrite upd_other; [exact W|congruence]).
  destruct e as [j a|j|j i|j|j i|j|i]; cbn [step]; unfold step_go; rewrite ?F.
  - destruct (pcs s j) eqn:P; intro E; injection E as <- <-; (split; [|noobs]); cbn; try exact W; apply KEEP; congruence.
  - destruct (pcs s j) eqn:P; intro E; injection E as <- <-; (split; [|noobs]); cbn; try exact W; apply KEEP; congruence.
  - destruct (pcs s j) eqn:P; destruct (sv s i); intro E; injection E as <- <-; (split; [|noobs]); cbn; try exact W; apply KEEP; congruence.
  - specialize (ND j). destruct (pcs s j) as [|a|a|a|a|a i| |l|x l|x| |] eqn:P; try (specialize (ND Logic.I); discriminate); try destruct (look a (servers s)); intro E; injection E as <- <-; (split; [|noobs]); cbn; try exact W; apply KEEP; congruence.
  - specialize (ND j). destruct (pcs s j) as [|a|a|a|a|a y| |l|x l|x| |] eqn:P; try (specialize (ND Logic.I); discriminate); intro E; injection E as <- <-; (split; [|noobs]); exact W.
  - specialize (ND j). destruct (pcs s j) as [|a|a|a|a|a y| |l|x l|x| |] eqn:P; try (specialize (ND Logic.I); discriminate); try destruct (sv s x); intro E; injection E as <- <-; (split; [|noobs]); cbn; try exact W; apply KEEP; congruence.
  - destruct (sv s i); intro E; injection E as <- <-; (split; [|noobs]); exact W.
Qed.
Lemma run_wedged es : forall t s k t' s', Inv t s -> wedged s k -> run s es = (t', s') -> (forall i a, ~ In (OStart i a) t') /\ (forall j, ~ In (OStopped j) t').
Proof.
  induction es as [|e es IH]; intros t s k t' s' I W; cbn [run].
  - intro E. injection E as <- <-. now split.
  - destruct (step s e) as [o1 s1] eqn:E1. destruct (run s1 es) as [o2 s2] eqn:E2. intro E. injection E as <- <-.
    destruct (step_wedged t s k e o1 s1 I W E1) as (W' & A & B). destruct (IH (t ++ o1) s1 k o2 s2 (step_inv _ _ _ _ _ I E1) W' E2) as [C D].
    split; [intros i a X|intros j X]; apply in_app_or in X; destruct X as [X|X]; [now apply A in X|now apply C in X|now apply B in X|now apply D in X].
Qed.
