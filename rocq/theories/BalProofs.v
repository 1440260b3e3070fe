(** Proofs about balancers. *)
From Coq Require Import List Bool Arith Lia.
Import ListNotations.
From Verif Require Import BalModel BalSpec.

Lemma upd_same {A} (f : nat -> A) k v : upd f k v k = v.
Proof. unfold upd. now rewrite Nat.eqb_refl. Qed.
Lemma upd_other {A} (f : nat -> A) k v i : i <> k -> upd f k v i = f i.
Proof. intro N. unfold upd. destruct (Nat.eqb_spec i k); [contradiction|reflexivity]. Qed.
Lemma in_snoc {A} (x y : A) l : In x (l ++ [y]) <-> In x l \/ x = y.
Proof. rewrite in_app_iff. cbn. intuition congruence. Qed.
Lemma NoDup_snoc {A} (x : A) l : NoDup l -> ~ In x l -> NoDup (l ++ [x]).
Proof.
  induction l as [|y l IH]; intros N H; cbn; [now repeat constructor|]. inversion N as [|? ? Hn N']; subst. constructor.
  - rewrite in_snoc. intros [X| ->]; [contradiction|]. apply H. now left.
  - apply IH; [exact N'|]. intro X. apply H. now right.
Qed.
Lemma serial_pre t o : serial (t ++ o) -> serial t.
Proof. intros S t1 x t2 ->. apply (S t1 x (t2 ++ o)). now rewrite <- app_assoc. Qed.
Lemma stops_pre t o : stops_once (t ++ o) -> stops_once t.
Proof. intros S t1 x t2 ->. apply (S t1 x (t2 ++ o)). now rewrite <- app_assoc. Qed.
Lemma in_starts t c : In c (starts t) <-> In (OStart c) t.
Proof.
  unfold starts. rewrite in_flat_map. split.
  - intros (o & A & B). destruct o; try destruct B as [B|[]]; try destruct B. now subst.
  - intro H. exists (OStart c). split; [exact H|now left].
Qed.
Lemma starts_app t u : starts (t ++ u) = starts t ++ starts u.
Proof. apply flat_map_app. Qed.
Lemma in_halts t c : In c (halts t) <-> In (OHalt c) t.
Proof.
  unfold halts. rewrite in_flat_map. split.
  - intros (o & A & B). destruct o; try destruct B as [B|[]]; try destruct B. now subst.
  - intro H. exists (OHalt c). split; [exact H|now left].
Qed.
Lemma halts_app t u : halts (t ++ u) = halts t ++ halts u.
Proof. apply flat_map_app. Qed.

Definition adding (p : pc) : option nat := match p with ARead c | AWrite c _ | ATest c | ARun c => Some c | _ => None end.
Definition early (p : pc) (c : nat) : Prop := match p with ARead x | AWrite x _ => x = c | _ => False end.
Definition late (p : pc) (c : nat) : Prop := match p with ATest x | ARun x => x = c | _ => False end.
Definition todo (l : lpc) : list nat := match l with LTest l => l | LRun c l => c :: l | _ => [] end.
Definition begun (l : lpc) : Prop := match l with LNone | LTop => False | _ => True end.
Definition idle (s : st) : Prop := forall k, adding (pcs s k) = None.
Record Inv (t : list obs) (s : st) : Prop := {
  vAdd : forall k c, adding (pcs s k) = Some c -> In (OAdd k c) t /\ ~ In (OAdded k c) t;
  vNew : forall k c, In (OAdd k c) t -> pcs s k <> PNew;
  vDone : forall k c, In (OAdd k c) t -> adding (pcs s k) = Some c \/ In (OAdded k c) t;
  vOne : forall j k c d, adding (pcs s j) = Some c -> adding (pcs s k) = Some d -> j = k;
  vAd : forall k c, In (OAdded k c) t -> In c (children s);
  vKid : forall c, In c (children s) -> exists k, In (OAdd k c) t;
  vNd : NoDup (children s);
  vEarly : forall k c, early (pcs s k) c -> ~ In c (children s);
  vW : forall k c l, pcs s k = AWrite c l -> l = children s;
  vLate : forall k c, late (pcs s k) c -> In c (children s) /\ ~ In (OStart c) t /\ ~ In c (todo (lp s));
  vArun : forall k c, pcs s k = ARun c -> runned s = true;
  vRun : In ORun t <-> runned s = true;
  vNone : runned s = false <-> lp s = LNone;
  vBeg : In OLoop t <-> begun (lp s);
  vTop : lp s = LTop -> idle s;
  vUn : ~ begun (lp s) -> forall c, ~ In (OStart c) t;
  vSt : forall c, In (OStart c) t -> In c (children s);
  vTn : NoDup (todo (lp s));
  vTin : forall c, In c (todo (lp s)) -> In c (children s) /\ ~ In (OStart c) t;
  vAll : begun (lp s) -> forall c, In c (children s) -> In (OStart c) t \/ In c (todo (lp s)) \/ exists k, late (pcs s k) c;
  vSn : NoDup (starts t);
  vCr : lp s <> LCrash /\ ~ In OCrash t;
  vC : forall c, crun s c = true -> In (OStart c) t
}.
Lemma init_inv : Inv [] s_init.
Proof.
  constructor; cbn; try discriminate; try tauto; try (intros; tauto); try constructor; try (intros; discriminate); try (intros; contradiction); try tauto.
  all: try (split; [intros []|discriminate]); try reflexivity; try discriminate.
Qed.
(** steps that neither touch the children nor the loop, and say nothing about them *)
Definition dull (o : obs) : Prop :=
  match o with ORunPanic | OStop _ | OStopped _ | OPanic _ | OHalt _ | OHalted _ | OEnd | OUStop _ | OSent _ | OSendPanic _ | OTake _ _ => True | _ => False end.
Definition same_loop (l l' : lpc) : Prop := l = l' \/ (begun l /\ begun l' /\ todo l = todo l' /\ l' <> LCrash).
Lemma dull_inv t s s' o : Inv t s -> (forall x, In x o -> dull x) ->
  children s' = children s -> runned s' = runned s -> same_loop (lp s) (lp s') -> crun s' = crun s ->
  (forall k, pcs s' k = pcs s k \/ (adding (pcs s k) = None /\ adding (pcs s' k) = None /\ pcs s' k <> PNew)) -> Inv (t ++ o) s'.
Proof.
  intros I D EC ER EL EK EP.
  assert (IN : forall x, ~ dull x -> (In x (t ++ o) <-> In x t)).
  { intros x H. rewrite in_app_iff. split; [intros [X|X]; [exact X|now apply D in X]|tauto]. }
  assert (AD : forall k, adding (pcs s' k) = adding (pcs s k)) by (intro k; destruct (EP k) as [->|[A B]]; [reflexivity|destruct B; congruence]).
  assert (LT : forall k c, late (pcs s' k) c <-> late (pcs s k) c).
  { intros k c. destruct (EP k) as [->|(A & B & C)]; [tauto|]. destruct (pcs s k), (pcs s' k); cbn in *; try discriminate; tauto. }
  assert (ET : todo (lp s') = todo (lp s)) by (destruct EL as [->|(_ & _ & X & _)]; congruence).
  assert (EB : begun (lp s') <-> begun (lp s)) by (destruct EL as [->|(A & B & _)]; tauto).
  assert (EN : (lp s' = LNone <-> lp s = LNone) /\ (lp s' = LTop -> lp s = LTop)).
  { destruct EL as [->|(A & B & _)]; [tauto|]. destruct (lp s), (lp s'); cbn in *; try tauto; split; try split; discriminate. }
  constructor; rewrite ?EC, ?ER, ?EK, ?ET; try rewrite !EB; try setoid_rewrite AD; try setoid_rewrite LT.
  - intros k c H. rewrite !IN by (intros []). now apply (vAdd _ _ I).
  - intros k c H. rewrite IN in H by (intros []). pose proof (vNew _ _ I k c H) as X. destruct (EP k) as [->|(A & B & C)]; assumption.
  - intros k c H. rewrite IN in H |- * by (intros []). now apply (vDone _ _ I).
  - apply (vOne _ _ I).
  - intros k c H. rewrite IN in H by (intros []). exact (vAd _ _ I k c H).
  - intros c H. destruct (vKid _ _ I c H) as [k X]. exists k. now rewrite IN by (intros []).
  - apply (vNd _ _ I).
  - intros k c H. apply (vEarly _ _ I k). destruct (EP k) as [<-|(A & B & _)]; [exact H|]. destruct (pcs s' k); try destruct H; discriminate.
  - intros k c l H. apply (vW _ _ I k c). destruct (EP k) as [<-|(A & B & _)]; [exact H|]. rewrite H in B. discriminate.
  - intros k c H. rewrite IN by (intros []). exact (vLate _ _ I k c H).
  - intros k c H. apply (vArun _ _ I k c). destruct (EP k) as [<-|(A & B & _)]; [exact H|]. rewrite H in B. discriminate.
  - rewrite IN by (intros []). apply (vRun _ _ I).
  - rewrite (proj1 EN). apply (vNone _ _ I).
  - rewrite IN by (intros []). apply (vBeg _ _ I).
  - intros H k. rewrite AD. apply (vTop _ _ I). now apply EN.
  - intros H c. rewrite IN by (intros []). now apply (vUn _ _ I).
  - intros c. rewrite IN by (intros []). apply (vSt _ _ I).
  - apply (vTn _ _ I).
  - intros c. rewrite IN by (intros []). apply (vTin _ _ I).
  - intros H c. rewrite IN by (intros []). now apply (vAll _ _ I).
  - rewrite starts_app. assert (X : starts o = []); [|now rewrite X, app_nil_r; apply (vSn _ _ I)]. clear -D.
    unfold starts in *. induction o as [|x o IH]; [reflexivity|]. cbn [flat_map]. rewrite IH by (intros y H; apply D; now right). specialize (D x (or_introl eq_refl)). destruct x; try reflexivity; destruct D.
  - rewrite IN by (intros []). split; [|apply (vCr _ _ I)]. destruct EL as [<-|(_ & _ & _ & X)]; [apply (vCr _ _ I)|exact X].
  - intros c. rewrite IN by (intros []). apply (vC _ _ I).
Qed.

Lemma idle_of t s : Inv t s -> added t -> idle s.
Proof. intros I A k. destruct (adding (pcs s k)) as [c|] eqn:E; [|reflexivity]. destruct (vAdd _ _ I k c E) as [X Y]. now apply A in X. Qed.
Lemma solo t s k c : Inv t s -> adding (pcs s k) = Some c -> forall j, j <> k -> adding (pcs s j) = None.
Proof. intros I E j N. destruct (adding (pcs s j)) as [d|] eqn:X; [|reflexivity]. exfalso. apply N. exact (vOne _ _ I j k d c X E). Qed.
Lemma adding_early p c : early p c -> adding p = Some c.
Proof. destruct p; cbn; intros H; try destruct H; reflexivity. Qed.
Lemma adding_late p c : late p c -> adding p = Some c.
Proof. destruct p; cbn; intros H; try destruct H; reflexivity. Qed.
Ltac other k' k N := destruct (Nat.eq_dec k' k) as [->|N]; [rewrite ?upd_same in *|rewrite ?(upd_other _ k _ k' N) in *].
Lemma snoc_eq {A} (t1 t2 t : list A) (x y : A) : t ++ [x] = t1 ++ y :: t2 -> (t1 = t /\ y = x /\ t2 = []) \/ exists t3, t = t1 ++ y :: t3 /\ t2 = t3 ++ [x].
Proof.
  intro E. destruct t2 as [|z t2 _] using rev_ind.
  - apply app_inj_tail in E. left. intuition congruence.
  - right. rewrite app_comm_cons, app_assoc in E. apply app_inj_tail in E. destruct E as [-> ->]. now exists t2.
Qed.
Lemma serial_last t x : serial (t ++ [x]) -> match x with
  | OAdd _ c => added t /\ (forall k', ~ In (OAdd k' c) t) /\ (In ORun t -> In OLoop t)
  | ORun => added t
  | _ => True
  end.
Proof. intro S. exact (S t x [] eq_refl). Qed.
Lemma add_inv t s k c : Inv t s -> pcs s k = PNew -> serial (t ++ [OAdd k c]) -> Inv (t ++ [OAdd k c]) (w_pc s k (ARead c)).
Proof.
  intros I P S. apply serial_last in S. destruct S as (A & D & RL). pose proof (idle_of _ _ I A) as ID.
  assert (IN : forall x, (forall j d, x <> OAdd j d) -> (In x (t ++ [OAdd k c]) <-> In x t)) by (intros x H; rewrite in_snoc; specialize (H k c); intuition congruence).
  constructor; cbn [w_pc children runned lp crun pcs].
  - intros k' c' H. other k' k N; [|now rewrite ID in H]. cbn in H. injection H as <-. split; [apply in_snoc; now right|]. rewrite IN by discriminate.
    intro X. destruct (vKid _ _ I c (vAd _ _ I k c X)) as [j Y]. now apply D in Y.
  - intros k' c' H. other k' k N; [discriminate|]. apply in_snoc in H. destruct H as [H|H]; [exact (vNew _ _ I k' c' H)|congruence].
  - intros k' c' H. apply in_snoc in H. destruct H as [H|H].
    + right. rewrite IN by discriminate. now apply A.
    + injection H as -> ->. left. now rewrite upd_same.
  - intros j k' x y X Y. other j k N; other k' k N'; try reflexivity; try now rewrite ID in *.
  - intros k' c' H. rewrite IN in H by discriminate. exact (vAd _ _ I _ _ H).
  - intros c' H. destruct (vKid _ _ I c' H) as [j Y]. exists j. apply in_snoc. now left.
  - apply (vNd _ _ I).
  - intros k' c' H. other k' k N; [|exact (vEarly _ _ I _ _ H)]. cbn in H. subst c'. intro X. destruct (vKid _ _ I c X) as [j Y]. now apply D in Y.
  - intros k' c' l H. other k' k N; [discriminate|exact (vW _ _ I _ _ _ H)].
  - intros k' c' H. other k' k N; [destruct H|]. rewrite IN by discriminate. exact (vLate _ _ I _ _ H).
  - intros k' c' H. other k' k N; [discriminate|exact (vArun _ _ I _ _ H)].
  - rewrite IN by discriminate. apply (vRun _ _ I).
  - apply (vNone _ _ I).
  - rewrite IN by discriminate. apply (vBeg _ _ I).
  - intro H. exfalso. assert (X : In ORun t). { apply (vRun _ _ I). destruct (runned s) eqn:R; [reflexivity|]. apply (vNone _ _ I) in R. congruence. }
    apply RL in X. apply (vBeg _ _ I) in X. now rewrite H in X.
  - intros H c'. rewrite IN by discriminate. now apply (vUn _ _ I).
  - intros c'. rewrite IN by discriminate. apply (vSt _ _ I).
  - apply (vTn _ _ I).
  - intros c'. rewrite IN by discriminate. apply (vTin _ _ I).
  - intros H c' X. rewrite IN by discriminate. destruct (vAll _ _ I H c' X) as [Y|[Y|[j Y]]]; [now left|right; now left|]. apply adding_late in Y. now rewrite ID in Y.
  - rewrite starts_app. cbn. rewrite app_nil_r. apply (vSn _ _ I).
  - rewrite IN by discriminate. apply (vCr _ _ I).
  - intros c'. rewrite IN by discriminate. apply (vC _ _ I).
Qed.
(** a move of an AddChild that says nothing *)
Lemma read_inv t s k c : Inv t s -> pcs s k = ARead c -> Inv t (w_pc s k (AWrite c (children s))).
Proof.
  intros I P. assert (E : adding (pcs s k) = Some c) by now rewrite P. pose proof (solo _ _ _ _ I E) as SO.
  constructor; cbn [w_pc children runned lp crun pcs]; try apply I.
  - intros k' c' H. other k' k N; [|exact (vAdd _ _ I _ _ H)]. apply (vAdd _ _ I). now rewrite P.
  - intros k' c' H. other k' k N; [discriminate|exact (vNew _ _ I _ _ H)].
  - intros k' c' H. other k' k N; [|exact (vDone _ _ I _ _ H)]. pose proof (vDone _ _ I _ _ H) as X. now rewrite P in X.
  - intros j k' x y X Y. other j k N; other k' k N'; try reflexivity; try (rewrite SO in * by assumption; discriminate).
  - intros k' c' H. other k' k N; [|exact (vEarly _ _ I _ _ H)]. apply (vEarly _ _ I k). now rewrite P.
  - intros k' c' l H. other k' k N; [congruence|exact (vW _ _ I _ _ _ H)].
  - intros k' c' H. other k' k N; [destruct H|exact (vLate _ _ I _ _ H)].
  - intros k' c' H. other k' k N; [discriminate|exact (vArun _ _ I _ _ H)].
  - intros H j. apply (vTop _ _ I) in H. now rewrite (H k) in E.
  - intros H c' X. destruct (vAll _ _ I H c' X) as [Y|[Y|[j Y]]]; [now left|right; now left|]. right. right. exists j. other j k N; [now rewrite P in Y|exact Y].
Qed.
Lemma write_inv t s k c l : Inv t s -> pcs s k = AWrite c l -> Inv t (w_pc (w_children s (l ++ [c])) k (ATest c)).
Proof.
  intros I P. assert (E : adding (pcs s k) = Some c) by now rewrite P. pose proof (solo _ _ _ _ I E) as SO. pose proof (vW _ _ I _ _ _ P) as ->.
  assert (NC : ~ In c (children s)) by (apply (vEarly _ _ I k); now rewrite P).
  assert (NS : ~ In (OStart c) t) by (intro X; now apply (vSt _ _ I) in X).
  constructor; cbn [w_pc w_children children runned lp crun pcs]; try apply I.
  - intros k' c' H. other k' k N; [|exact (vAdd _ _ I _ _ H)]. apply (vAdd _ _ I). now rewrite P.
  - intros k' c' H. other k' k N; [discriminate|exact (vNew _ _ I _ _ H)].
  - intros k' c' H. other k' k N; [|exact (vDone _ _ I _ _ H)]. pose proof (vDone _ _ I _ _ H) as X. now rewrite P in X.
  - intros j k' x y X Y. other j k N; other k' k N'; try reflexivity; try (rewrite SO in * by assumption; discriminate).
  - intros k' c' H. apply in_snoc. left. exact (vAd _ _ I _ _ H).
  - intros c' H. apply in_snoc in H. destruct H as [H| ->]; [exact (vKid _ _ I c' H)|]. exists k. apply (vAdd _ _ I). now rewrite P.
  - apply NoDup_snoc; [apply (vNd _ _ I)|exact NC].
  - intros k' c' H. other k' k N; [destruct H|]. apply adding_early in H. now rewrite SO in H.
  - intros k' c' l H. other k' k N; [discriminate|]. specialize (SO k' N). rewrite H in SO. discriminate.
  - intros k' c' H. other k' k N.
    + cbn in H. subst c'. split; [apply in_snoc; now right|]. split; [exact NS|]. intro X. now apply (vTin _ _ I) in X.
    + apply adding_late in H. now rewrite SO in H.
  - intros k' c' H. other k' k N; [discriminate|exact (vArun _ _ I _ _ H)].
  - intros H j. apply (vTop _ _ I) in H. now rewrite (H k) in E.
  - intros c' H. apply in_snoc. left. exact (vSt _ _ I _ H).
  - intros c' H. destruct (vTin _ _ I c' H). split; [apply in_snoc; now left|assumption].
  - intros H c' X. apply in_snoc in X. destruct X as [X| ->]; [|right; right; exists k; rewrite upd_same; reflexivity].
    destruct (vAll _ _ I H c' X) as [Y|[Y|[j Y]]]; [now left|right; now left|]. right. right. exists j. other j k N; [now rewrite P in Y|exact Y].
Qed.
Lemma test_inv t s k c : Inv t s -> pcs s k = ATest c -> runned s = true -> Inv t (w_pc s k (ARun c)).
Proof.
  intros I P R. assert (E : adding (pcs s k) = Some c) by now rewrite P. pose proof (solo _ _ _ _ I E) as SO.
  constructor; cbn [w_pc children runned lp crun pcs]; try apply I.
  - intros k' c' H. other k' k N; [|exact (vAdd _ _ I _ _ H)]. apply (vAdd _ _ I). now rewrite P.
  - intros k' c' H. other k' k N; [discriminate|exact (vNew _ _ I _ _ H)].
  - intros k' c' H. other k' k N; [|exact (vDone _ _ I _ _ H)]. pose proof (vDone _ _ I _ _ H) as X. now rewrite P in X.
  - intros j k' x y X Y. other j k N; other k' k N'; try reflexivity; try (rewrite SO in * by assumption; discriminate).
  - intros k' c' H. other k' k N; [destruct H|exact (vEarly _ _ I _ _ H)].
  - intros k' c' l H. other k' k N; [discriminate|exact (vW _ _ I _ _ _ H)].
  - intros k' c' H. other k' k N; [|exact (vLate _ _ I _ _ H)]. apply (vLate _ _ I k). now rewrite P.
  - intros k' c' H. other k' k N; [exact R|exact (vArun _ _ I _ _ H)].
  - intros H j. apply (vTop _ _ I) in H. now rewrite (H k) in E.
  - intros H c' X. destruct (vAll _ _ I H c' X) as [Y|[Y|[j Y]]]; [now left|right; now left|]. right. right. exists j. other j k N; [now rewrite P in Y|exact Y].
Qed.
Lemma added_inv t s k c : Inv t s -> pcs s k = ATest c -> runned s = false -> Inv (t ++ [OAdded k c]) (w_pc s k PEnd).
Proof.
  intros I P R. assert (E : adding (pcs s k) = Some c) by now rewrite P. pose proof (solo _ _ _ _ I E) as SO.
  assert (IN : forall x, (forall j d, x <> OAdded j d) -> (In x (t ++ [OAdded k c]) <-> In x t)) by (intros x H; rewrite in_snoc; specialize (H k c); intuition congruence).
  assert (LN : lp s = LNone) by now apply (vNone _ _ I).
  constructor; cbn [w_pc children runned lp crun pcs]; try apply I.
  - intros k' c' H. other k' k N; [discriminate|]. now rewrite SO in H.
  - intros k' c' H. rewrite IN in H by discriminate. other k' k N; [discriminate|exact (vNew _ _ I _ _ H)].
  - intros k' c' H. rewrite IN in H by discriminate. rewrite in_snoc. pose proof (vDone _ _ I _ _ H) as X. other k' k N; [|tauto]. rewrite P in X. cbn in X. destruct X as [X|X]; [injection X as <-; tauto|tauto].
  - intros j k' x y X Y. other j k N; other k' k N'; try reflexivity; try (rewrite SO in * by assumption; discriminate).
  - intros k' c' H. apply in_snoc in H. destruct H as [H|H]; [exact (vAd _ _ I _ _ H)|]. injection H as -> ->. apply (vLate _ _ I k). now rewrite P.
  - intros c' H. destruct (vKid _ _ I c' H) as [j Y]. exists j. apply in_snoc. now left.
  - intros k' c' H. other k' k N; [destruct H|exact (vEarly _ _ I _ _ H)].
  - intros k' c' l H. other k' k N; [discriminate|exact (vW _ _ I _ _ _ H)].
  - intros k' c' H. rewrite IN by discriminate. other k' k N; [destruct H|exact (vLate _ _ I _ _ H)].
  - intros k' c' H. other k' k N; [discriminate|exact (vArun _ _ I _ _ H)].
  - rewrite IN by discriminate. apply (vRun _ _ I).
  - rewrite IN by discriminate. apply (vBeg _ _ I).
  - rewrite LN. discriminate.
  - intros H c'. rewrite IN by discriminate. now apply (vUn _ _ I).
  - intros c'. rewrite IN by discriminate. apply (vSt _ _ I).
  - intros c'. rewrite IN by discriminate. apply (vTin _ _ I).
  - rewrite LN. intros [].
  - rewrite starts_app. cbn. rewrite app_nil_r. apply (vSn _ _ I).
  - rewrite IN by discriminate. apply (vCr _ _ I).
  - intros c'. rewrite IN by discriminate. apply (vC _ _ I).
Qed.
Lemma arun_inv t s k c : Inv t s -> pcs s k = ARun c -> Inv (t ++ [OStart c; OAdded k c]) (w_pc (start_child s c) k PEnd).
Proof.
  intros I P. assert (E : adding (pcs s k) = Some c) by now rewrite P. pose proof (solo _ _ _ _ I E) as SO.
  assert (L : late (pcs s k) c) by now rewrite P. destruct (vLate _ _ I k c L) as (LC & LS & LT). pose proof (vArun _ _ I _ _ P) as R.
  assert (IN : forall x, (forall j d, x <> OAdded j d) -> (forall d, x <> OStart d) -> (In x (t ++ [OStart c; OAdded k c]) <-> In x t)).
  { intros x H H2. rewrite in_app_iff. cbn. specialize (H k c). specialize (H2 c). intuition congruence. }
  assert (IS : forall d, In (OStart d) (t ++ [OStart c; OAdded k c]) <-> In (OStart d) t \/ d = c) by (intro d; rewrite in_app_iff; cbn; intuition congruence).
  assert (IA : forall j d, In (OAdded j d) (t ++ [OStart c; OAdded k c]) <-> In (OAdded j d) t \/ (j = k /\ d = c)) by (intros j d; rewrite in_app_iff; cbn; intuition congruence).
  constructor; cbn [w_pc start_child children runned lp crun pcs]; try apply I.
  - intros k' c' H. other k' k N; [discriminate|]. now rewrite SO in H.
  - intros k' c' H. rewrite IN in H by discriminate. other k' k N; [discriminate|exact (vNew _ _ I _ _ H)].
  - intros k' c' H. rewrite IN in H by discriminate. rewrite IA. pose proof (vDone _ _ I _ _ H) as X. other k' k N; [|tauto]. rewrite P in X. cbn in X. destruct X as [X|X]; [injection X as <-; tauto|tauto].
  - intros j k' x y X Y. other j k N; other k' k N'; try reflexivity; try (rewrite SO in * by assumption; discriminate).
  - intros k' c' H. apply IA in H. destruct H as [H|[-> ->]]; [exact (vAd _ _ I _ _ H)|exact LC].
  - intros c' H. destruct (vKid _ _ I c' H) as [j Y]. exists j. apply in_or_app. now left.
  - intros k' c' H. other k' k N; [destruct H|exact (vEarly _ _ I _ _ H)].
  - intros k' c' l H. other k' k N; [discriminate|exact (vW _ _ I _ _ _ H)].
  - intros k' c' H. other k' k N; [destruct H|]. apply adding_late in H. now rewrite SO in H.
  - intros k' c' H. other k' k N; [discriminate|exact (vArun _ _ I _ _ H)].
  - rewrite IN by discriminate. apply (vRun _ _ I).
  - rewrite IN by discriminate. apply (vBeg _ _ I).
  - intros H j. apply (vTop _ _ I) in H. now rewrite (H k) in E.
  - intros H c'. exfalso. destruct (lp s) eqn:Q; try (apply H; exact Logic.I). { apply (vNone _ _ I) in Q. congruence. } apply (vTop _ _ I) in Q. now rewrite (Q k) in E.
  - intros c' H. apply IS in H. destruct H as [H| ->]; [exact (vSt _ _ I _ H)|exact LC].
  - intros c' H. rewrite IS. destruct (vTin _ _ I c' H) as [X Y]. split; [exact X|]. intros [Z| ->]; contradiction.
  - intros H c' X. rewrite IS. destruct (vAll _ _ I H c' X) as [Y|[Y|[j Y]]]; [left; now left|right; now left|]. other j k N; [|pose proof (adding_late _ _ Y) as Z; now rewrite SO in Z].
    left. right. rewrite P in Y. symmetry. exact Y.
  - rewrite starts_app. cbn. apply NoDup_snoc; [apply (vSn _ _ I)|]. now rewrite in_starts.
  - rewrite IN by discriminate. apply (vCr _ _ I).
  - intros c' H. apply IS. other c' c N; [now right|]. left. now apply (vC _ _ I).
Qed.
Lemma run_inv1 t s : Inv t s -> runned s = false -> serial (t ++ [ORun]) -> Inv (t ++ [ORun]) (w_lp (w_runned s true) LTop).
Proof.
  intros I R S. apply serial_last in S. pose proof (idle_of _ _ I S) as ID. assert (LN : lp s = LNone) by now apply (vNone _ _ I).
  assert (IN : forall x, x <> ORun -> (In x (t ++ [ORun]) <-> In x t)) by (intros x H; rewrite in_snoc; intuition congruence).
  assert (NB : ~ begun (lp s)) by (rewrite LN; intros []).
  constructor; cbn [snd ok w_lp w_runned children runned lp crun pcs todo begun]; try apply I.
  - intros k' c' H. now rewrite ID in H.
  - intros k' c' H. rewrite IN in H by discriminate. exact (vNew _ _ I _ _ H).
  - intros k' c' H. rewrite IN in H |- * by discriminate. exact (vDone _ _ I _ _ H).
  - intros k' c' H. rewrite IN in H by discriminate. exact (vAd _ _ I _ _ H).
  - intros c' H. destruct (vKid _ _ I c' H) as [j Y]. exists j. apply in_snoc. now left.
  - intros k' c' H. apply adding_late in H. now rewrite ID in H.
  - reflexivity.
  - split; [reflexivity|]. intros _. apply in_snoc. now right.
  - split; discriminate.
  - rewrite IN by discriminate. rewrite (vBeg _ _ I). tauto.
  - intros _. exact ID.
  - intros _ c'. rewrite IN by discriminate. now apply (vUn _ _ I).
  - intros c'. rewrite IN by discriminate. apply (vSt _ _ I).
  - constructor.
  - intros c' [].
  - intros [].
  - rewrite starts_app. cbn. rewrite app_nil_r. apply (vSn _ _ I).
  - rewrite IN by discriminate. split; [discriminate|apply (vCr _ _ I)].
  - intros c'. rewrite IN by discriminate. apply (vC _ _ I).
Qed.
Lemma top_inv t s : Inv t s -> lp s = LTop -> Inv (t ++ [OLoop]) (w_lp s (LTest (children s))).
Proof.
  intros I L. pose proof (vTop _ _ I L) as ID. assert (R : runned s = true) by (destruct (runned s) eqn:R; [reflexivity|apply (vNone _ _ I) in R; congruence]).
  assert (IN : forall x, x <> OLoop -> (In x (t ++ [OLoop]) <-> In x t)) by (intros x H; rewrite in_snoc; intuition congruence).
  assert (NS : forall c, ~ In (OStart c) t) by (apply (vUn _ _ I); rewrite L; intros []).
  constructor; cbn [snd ok w_lp w_runned children runned lp crun pcs todo begun]; try apply I.
  - intros k' c' H. now rewrite ID in H.
  - intros k' c' H. rewrite IN in H by discriminate. exact (vNew _ _ I _ _ H).
  - intros k' c' H. rewrite IN in H |- * by discriminate. exact (vDone _ _ I _ _ H).
  - intros k' c' H. rewrite IN in H by discriminate. exact (vAd _ _ I _ _ H).
  - intros c' H. destruct (vKid _ _ I c' H) as [j Y]. exists j. apply in_snoc. now left.
  - intros k' c' H. apply adding_late in H. now rewrite ID in H.
  - rewrite IN by discriminate. apply (vRun _ _ I).
  - split; [congruence|discriminate].
  - split; [intros _; exact Logic.I|]. intros _. apply in_snoc. now right.
  - discriminate.
  - intros H. exfalso. apply H. exact Logic.I.
  - intros c'. rewrite IN by discriminate. apply (vSt _ _ I).
  - intros c' H. rewrite IN by discriminate. split; [exact H|apply NS].
  - intros _ c' H. right. now left.
  - rewrite starts_app. cbn. rewrite app_nil_r. apply (vSn _ _ I).
  - rewrite IN by discriminate. split; [discriminate|apply (vCr _ _ I)].
  - intros c'. rewrite IN by discriminate. apply (vC _ _ I).
Qed.
Lemma lrun_inv t s c l : Inv t s -> lp s = LRun c l -> Inv (t ++ [OStart c]) (w_lp (start_child s c) (LTest l)).
Proof.
  intros I L. assert (R : runned s = true) by (destruct (runned s) eqn:R; [reflexivity|apply (vNone _ _ I) in R; congruence]).
  assert (IN : forall x, (forall d, x <> OStart d) -> (In x (t ++ [OStart c]) <-> In x t)) by (intros x H; rewrite in_snoc; specialize (H c); intuition congruence).
  assert (IS : forall d, In (OStart d) (t ++ [OStart c]) <-> In (OStart d) t \/ d = c) by (intro d; rewrite in_snoc; intuition congruence).
  assert (TD : todo (lp s) = c :: l) by now rewrite L. assert (BG : begun (lp s)) by now rewrite L.
  pose proof (vTn _ _ I) as TN. rewrite TD in TN. inversion TN as [|? ? NC TN']; subst.
  assert (CI : In c (todo (lp s))) by (rewrite TD; now left). destruct (vTin _ _ I c CI) as [CC CS].
  constructor; cbn [snd ok w_lp start_child children runned lp crun pcs todo begun]; try apply I.
  - intros k' c' H. rewrite !IN by discriminate. exact (vAdd _ _ I _ _ H).
  - intros k' c' H. rewrite IN in H by discriminate. exact (vNew _ _ I _ _ H).
  - intros k' c' H. rewrite IN in H |- * by discriminate. exact (vDone _ _ I _ _ H).
  - intros k' c' H. rewrite IN in H by discriminate. exact (vAd _ _ I _ _ H).
  - intros c' H. destruct (vKid _ _ I c' H) as [j Y]. exists j. apply in_snoc. now left.
  - intros k' c' H. destruct (vLate _ _ I k' c' H) as (A & B & D). rewrite TD in D. cbn in D. split; [exact A|]. split; [|tauto]. rewrite IS. intros [X|X]; [contradiction|]. apply D. now left.
  - rewrite IN by discriminate. apply (vRun _ _ I).
  - split; [congruence|discriminate].
  - rewrite IN by discriminate. rewrite (vBeg _ _ I). tauto.
  - discriminate.
  - intros H. exfalso. apply H. exact Logic.I.
  - intros c' H. apply IS in H. destruct H as [H| ->]; [exact (vSt _ _ I _ H)|exact CC].
  - exact TN'.
  - intros c' H. assert (X : In c' (todo (lp s))) by (rewrite TD; now right). destruct (vTin _ _ I c' X) as [A B]. split; [exact A|]. rewrite IS. intros [Z| ->]; contradiction.
  - intros _ c' H. rewrite IS. destruct (vAll _ _ I BG c' H) as [Y|[Y|Y]]; [left; now left| |right; now right]. rewrite TD in Y. destruct Y as [->|Y]; [left; now right|right; now left].
  - rewrite starts_app. cbn. apply NoDup_snoc; [apply (vSn _ _ I)|]. now rewrite in_starts.
  - rewrite IN by discriminate. split; [discriminate|apply (vCr _ _ I)].
  - intros c' H. apply IS. other c' c N; [now right|]. left. now apply (vC _ _ I).
Qed.
Ltac dullo := let x := fresh in let H := fresh in intros x H; cbn in H; repeat (destruct H as [<-|H]); try (exact Logic.I); destruct H.
Lemma step_inv t s e o s' : Inv t s -> serial (t ++ o) -> step s e = (o, s') -> Inv (t ++ o) s'.
Proof.
  intros I S. destruct (vCr _ _ I) as [NC _]. unfold step.
  assert (Q : step_live s e = (o, s') -> Inv (t ++ o) s').
  2:{ destruct (lp s); try exact Q. congruence. }
  assert (D0 : forall x, In x [] -> dull x) by (intros x []).
  assert (RF : same_loop (lp s) (lp s)) by now left.
  assert (SAME : Inv (t ++ []) s) by now rewrite app_nil_r.
  destruct e as [|k c|k|r|c|k| |k| |c]; cbn [step_live].
  - destruct (runned s) eqn:R; intro E; injection E as <- <-; [apply dull_inv with s; try reflexivity; trivial; [dullo|now left]|]. now apply run_inv1.
  - destruct (pcs s k) eqn:P; intro E; injection E as <- <-; try exact SAME. now apply add_inv.
  - destruct (pcs s k) eqn:P; intro E; injection E as <- <-; try exact SAME. apply dull_inv with s; trivial; [dullo|]. cbn. intro j. other j k N; [|now left]. right. rewrite P. repeat split; discriminate.
  - destruct (runned s) eqn:R; intro E; injection E as <- <-; apply dull_inv with s; trivial; try dullo; now left.
  - destruct (loops s c) eqn:L; intro E; injection E as <- <-; try exact SAME. apply dull_inv with s; trivial; try dullo; now left.
  - unfold step_go. destruct (pcs s k) eqn:P; try (intro E; injection E as <- <-; exact SAME).
    + intro E; injection E as <- <-. rewrite app_nil_r. now apply read_inv.
    + intro E; injection E as <- <-. rewrite app_nil_r. now apply write_inv.
    + destruct (runned s) eqn:R; intro E; injection E as <- <-; [rewrite app_nil_r; now apply test_inv|now apply added_inv].
    + intro E; injection E as <- <-. now apply arun_inv.
    + destruct (runned s) eqn:R; [destruct (closed s)|]; intro E; injection E as <- <-; apply dull_inv with s; trivial; try dullo; cbn; intro j; (other j k N; [|now left]; right; rewrite P; repeat split; discriminate).
  - unfold step_loop. destruct (lp s) as [| |l|c l| | |l|c l| |] eqn:L; try (intro E; injection E as <- <-; exact SAME).
    + intro E; injection E as <- <-. now apply top_inv.
    + destruct l as [|c l].
      * intro E; injection E as <- <-. apply dull_inv with s; trivial; [right; rewrite L; cbn; repeat split; discriminate|now left].
      * assert (CI : In c (todo (lp s))) by (rewrite L; now left). destruct (vTin _ _ I c CI) as [_ CS].
        destruct (crun s c) eqn:X; [apply (vC _ _ I) in X; contradiction|]. intro E; injection E as <- <-. apply dull_inv with s; trivial; [right; rewrite L; cbn; repeat split; discriminate|now left].
    + intro E; injection E as <- <-. now apply lrun_inv.
    + intro E; injection E as <- <-. apply dull_inv with s; trivial; [right; rewrite L; cbn; repeat split; discriminate|now left].
    + destruct l as [|c l]; intro E; injection E as <- <-; (apply dull_inv with s; trivial; [dullo|right; rewrite L; cbn; repeat split; discriminate|now left]).
  - destruct (pcs s k) eqn:P; try (intro E; injection E as <- <-; exact SAME). destruct (lp s) eqn:L; intro E; injection E as <- <-; try exact SAME.
    apply dull_inv with s; trivial; [dullo|right; rewrite L; cbn; repeat split; discriminate|]. cbn. intro j. other j k N; [|now left]. right. rewrite P. repeat split; discriminate.
  - destruct (lp s) as [| |l|c l| | |l|c l| |] eqn:L; try (intro E; injection E as <- <-; exact SAME). destruct (loops s c) eqn:X; intro E; injection E as <- <-; try exact SAME.
    apply dull_inv with s; trivial; [dullo|right; rewrite L; cbn; repeat split; discriminate|now left].
  - destruct (loops s c) eqn:X; [intro E; injection E as <- <-; exact SAME|]. destruct (q s); intro E; injection E as <- <-; try exact SAME. apply dull_inv with s; trivial; [dullo|now left].
Qed.
Lemma run_inv es : forall t s o s', Inv t s -> serial (t ++ o) -> run s es = (o, s') -> Inv (t ++ o) s'.
Proof.
  induction es as [|e es IH]; intros t s o s' I S; cbn [run].
  - intro E. injection E as <- <-. now rewrite app_nil_r.
  - destruct (step s e) as [o1 s1] eqn:E1. destruct (run s1 es) as [o2 s2] eqn:E2. intro E. injection E as <- <-. rewrite app_assoc in *.
    apply (IH _ _ _ _ (step_inv _ _ _ _ _ I (serial_pre _ _ S) E1) S E2).
Qed.
Lemma start_inv es t s : start es = (t, s) -> serial t -> Inv t s.
Proof. intros E S. exact (run_inv es [] s_init t s init_inv S E). Qed.

(** ** Stopping *)
Definition fin (l : lpc) : Prop := match l with LRange | LHalt _ | LSend _ _ | LEnd => True | _ => False end.
Definition stopper (p : pc) : Prop := p = TClose \/ p = TExit.
Definition halting (t : list obs) (s : st) : Prop :=
  match lp s with
  | LHalt l => exists d, children s = d ++ l /\ (forall c, In c d -> In (OHalted c) t) /\ forall c, In (OHalt c) t -> In c d
  | LSend c l => exists d, children s = d ++ c :: l /\ (forall x, In x d -> In (OHalted x) t) /\ (forall x, In (OHalt x) t -> In x d \/ x = c) /\ ~ In (OHalted c) t /\ In (OHalt c) t
  | LEnd => (forall c, In c (children s) -> In (OHalted c) t) /\ In OEnd t
  | _ => forall c, ~ In (OHalt c) t
  end.
Record Inv2 (t : list obs) (s : st) : Prop := {
  uLo : forall c, In (OStart c) t -> In (OHalted c) t \/ 1 <= loops s c;
  uHd : forall c, In (OHalted c) t -> In (OHalt c) t;
  uHg : halting t s;
  uHn : NoDup (halts t);
  uFin : fin (lp s) -> exists k, In (OStop k) t;
  uOne : forall j k, In (OStop j) t -> In (OStop k) t -> j = k;
  uIdle : forall k, In (OStop k) t -> idle s /\ runned s = true;
  uS1 : forall k, In (OStop k) t -> stopper (pcs s k) \/ In (OStopped k) t;
  uS2 : forall k, stopper (pcs s k) -> In (OStop k) t /\ ~ fin (lp s);
  uS3 : forall k, pcs s k = TClose -> closed s = false;
  uCl : closed s = true -> exists k, In (OStop k) t;
  uF : forall k, In (OStopped k) t -> fin (lp s)
}.
Lemma init_inv2 : Inv2 [] s_init.
Proof. constructor; cbn; try (intros; contradiction); try (intros; discriminate); try (constructor; fail); try tauto; intros k [X|X]; discriminate. Qed.
Definition plain (o : obs) : Prop := match o with OStop _ | OStopped _ | OHalt _ | OHalted _ | OEnd | OUStop _ => False | _ => True end.
Lemma calm_inv2 t s o s' : Inv2 t s -> (forall x, In x o -> plain x) ->
  (forall c, loops s c <= loops s' c) -> (forall c, In (OStart c) o -> 1 <= loops s' c) ->
  (children s' = children s \/ ~ fin (lp s)) -> (lp s' = lp s \/ (~ fin (lp s) /\ ~ fin (lp s'))) -> closed s' = closed s -> (runned s = true -> runned s' = true) ->
  (forall k, pcs s' k = pcs s k \/ (~ stopper (pcs s k) /\ ~ stopper (pcs s' k) /\ forall j, ~ In (OStop j) t)) -> Inv2 (t ++ o) s'.
Proof.
  intros U PL LO ST CH EL EC ER EP.
  assert (IN : forall x, ~ plain x -> (In x (t ++ o) <-> In x t)) by (intros x H; rewrite in_app_iff; split; [intros [X|X]; [exact X|now apply PL in X]|tauto]).
  assert (FF : fin (lp s') -> fin (lp s)) by (destruct EL as [->|[A B]]; tauto).
  constructor.
  - intros c H. rewrite IN by (intros []). apply in_app_or in H. destruct H as [H|H]; [|right; now apply ST]. destruct (uLo _ _ U c H) as [X|X]; [now left|right]. specialize (LO c). lia.
  - intros c H. rewrite IN in H |- * by (intros []). now apply (uHd _ _ U).
  - pose proof (uHg _ _ U) as G. unfold halting in *. destruct EL as [->|[A B]].
    + destruct (lp s) as [| |l|c l| | |l|c l| |]; cbn [fin] in CH; try (intros c0; rewrite IN by (intros []); apply G).
      * destruct CH as [->|CH]; [|tauto]. destruct G as (d & X & Y & Z). exists d. split; [exact X|]. split; intros c; rewrite IN by (intros []); [apply Y|apply Z].
      * destruct CH as [->|CH]; [|tauto]. destruct G as (d & X & Y & Z & W). exists d. split; [exact X|]. split; [intros x; rewrite IN by (intros []); apply Y|]. split; [intros x; rewrite IN by (intros []); apply Z|]. now rewrite !IN by (intros []).
      * destruct CH as [->|CH]; [|tauto]. destruct G as [X Y]. split; [intros c; rewrite IN by (intros []); apply X|now rewrite IN by (intros [])].
    + assert (G' : forall c, ~ In (OHalt c) t) by (destruct (lp s); try exact G; now destruct A).
      destruct (lp s'); try (intros c0; rewrite IN by (intros []); apply G'); now destruct B.
  - rewrite halts_app. assert (X : halts o = []); [|rewrite X, app_nil_r; apply (uHn _ _ U)]. clear -PL. unfold halts in *.
    induction o as [|x o IH]; [reflexivity|]. cbn [flat_map]. rewrite IH by (intros y H; apply PL; now right). specialize (PL x (or_introl eq_refl)). destruct x; try reflexivity; destruct PL.
  - intro H. apply FF in H. destruct (uFin _ _ U H) as [k X]. exists k. now rewrite IN by (intros []).
  - intros j k. rewrite !IN by (intros []). apply (uOne _ _ U).
  - intros k H. rewrite IN in H by (intros []). destruct (uIdle _ _ U k H) as [A B]. split; [|now apply ER]. intro j. destruct (EP j) as [->|(_ & _ & X)]; [apply A|]. now apply X in H.
  - intros k H. rewrite !IN in * by (intros []). destruct (EP k) as [->|(_ & _ & X)]; [now apply (uS1 _ _ U)|]. now apply X in H.
  - intros k H. rewrite IN by (intros []). destruct (EP k) as [X|(_ & X & _)]; [|contradiction]. rewrite X in H. destruct (uS2 _ _ U k H). split; [assumption|tauto].
  - intros k H. rewrite EC. destruct (EP k) as [X|(_ & X & _)]; [|exfalso; apply X; now left]. rewrite X in H. now apply (uS3 _ _ U) in H.
  - rewrite EC. intro H. destruct (uCl _ _ U H) as [k X]. exists k. now rewrite IN by (intros []).
  - intros k H. rewrite IN in H by (intros []). apply (uF _ _ U) in H. destruct EL as [->|[A B]]; tauto.
Qed.
Lemma none_stopped t s k c : Inv2 t s -> adding (pcs s k) = Some c -> forall j, ~ In (OStop j) t.
Proof. intros U A j H. apply (uIdle _ _ U) in H. destruct H as [H _]. now rewrite H in A. Qed.
Lemma stops_last t x : stops_once (t ++ [x]) -> match x with
  | OStop _ => In ORun t /\ added t /\ forall k', ~ In (OStop k') t
  | OAdd _ _ => forall k', ~ In (OStop k') t
  | OUStop _ => False
  | _ => True
  end.
Proof. intro S. exact (S t x [] eq_refl). Qed.
Ltac plaino := let x := fresh in let H := fresh in intros x H; cbn in H; repeat (destruct H as [<-|H]); try (exact Logic.I); destruct H.
Ltac nost := let X := fresh in intros [X|X]; discriminate X.
(** Stop is called *)
Lemma stop_inv2 t s k : Inv t s -> Inv2 t s -> pcs s k = PNew -> stops_once (t ++ [OStop k]) -> Inv2 (t ++ [OStop k]) (w_pc s k TClose).
Proof.
  intros I U P S. apply stops_last in S. destruct S as (R & A & N0). pose proof (idle_of _ _ I A) as ID.
  assert (NF : ~ fin (lp s)) by (intro F; destruct (uFin _ _ U F) as [j X]; now apply N0 in X).
  assert (IN : forall x, (forall j, x <> OStop j) -> (In x (t ++ [OStop k]) <-> In x t)) by (intros x H; rewrite in_snoc; specialize (H k); intuition congruence).
  assert (IO : forall j, In (OStop j) (t ++ [OStop k]) -> j = k) by (intros j H; apply in_snoc in H; destruct H as [H|H]; [now apply N0 in H|congruence]).
  constructor; cbn [w_pc children lp loops closed pcs runned].
  - intros c. rewrite !IN by discriminate. apply (uLo _ _ U).
  - intros c. rewrite !IN by discriminate. apply (uHd _ _ U).
  - pose proof (uHg _ _ U) as G. unfold halting in *. cbn [w_pc lp]. destruct (lp s); try (intros c0; rewrite IN by discriminate; apply G); now destruct NF.
  - rewrite halts_app. cbn. rewrite app_nil_r. apply (uHn _ _ U).
  - intros F. contradiction.
  - intros i j X Y. apply IO in X, Y. congruence.
  - intros j X. split; [|now apply (vRun _ _ I)]. intro i. cbn. other i k N; [reflexivity|apply ID].
  - intros j X. apply IO in X. subst j. left. left. now rewrite upd_same.
  - intros j X. other j k N; [split; [apply in_snoc; now right|exact NF]|]. apply (uS2 _ _ U) in X. destruct X as [X _]. now apply N0 in X.
  - intros j X. destruct (closed s) eqn:C; [|reflexivity]. apply (uCl _ _ U) in C. destruct C as [i C]. now apply N0 in C.
  - intros C. apply (uCl _ _ U) in C. destruct C as [i C]. now apply N0 in C.
  - intros j. rewrite IN by discriminate. apply (uF _ _ U).
Qed.
Lemma close_inv2 t s k : Inv2 t s -> pcs s k = TClose -> Inv2 t (w_pc (w_closed s true) k TExit).
Proof.
  intros U P. assert (SK : stopper (pcs s k)) by now left. destruct (uS2 _ _ U k SK) as [O F].
  constructor; cbn [w_pc w_closed children lp loops closed pcs runned]; try apply U.
  - intros j H. destruct (uIdle _ _ U j H) as [A B]. split; [|exact B]. intro i. cbn. other i k N; [reflexivity|apply A].
  - intros j H. destruct (Nat.eq_dec j k) as [->|N]; [left; right; apply upd_same|]. rewrite upd_other by exact N. now apply (uS1 _ _ U).
  - intros j H. other j k N; [now split|now apply (uS2 _ _ U)].
  - intros j H. other j k N; [discriminate|]. assert (X : stopper (pcs s j)) by now left. apply (uS2 _ _ U) in X. destruct X as [X _]. exfalso. apply N. exact (uOne _ _ U _ _ X O).
  - intros _. now exists k.
Qed.
Lemma exit_inv2 t s k : Inv2 t s -> pcs s k = TExit -> lp s = LWait -> Inv2 (t ++ [OStopped k]) (w_lp (w_pc s k PEnd) LRange).
Proof.
  intros U P L. assert (SK : stopper (pcs s k)) by now right. destruct (uS2 _ _ U k SK) as [O F].
  assert (IN : forall x, (forall j, x <> OStopped j) -> (In x (t ++ [OStopped k]) <-> In x t)) by (intros x H; rewrite in_snoc; specialize (H k); intuition congruence).
  constructor; cbn [w_pc w_lp children lp loops closed pcs runned].
  - intros c. rewrite !IN by discriminate. apply (uLo _ _ U).
  - intros c. rewrite !IN by discriminate. apply (uHd _ _ U).
  - pose proof (uHg _ _ U) as G. unfold halting in *. rewrite L in G. cbn. intro c. rewrite IN by discriminate. apply G.
  - rewrite halts_app. cbn. rewrite app_nil_r. apply (uHn _ _ U).
  - intros _. exists k. now rewrite IN by discriminate.
  - intros i j. rewrite !IN by discriminate. apply (uOne _ _ U).
  - intros j H. rewrite IN in H by discriminate. destruct (uIdle _ _ U j H) as [A B]. split; [|exact B]. intro i. cbn. other i k N; [reflexivity|apply A].
  - intros j H. rewrite IN in H by discriminate. rewrite (uOne _ _ U j k H O). right. apply in_snoc. now right.
  - intros j H. other j k N; [now destruct H|]. apply (uS2 _ _ U) in H. destruct H as [H _]. exfalso. apply N. exact (uOne _ _ U _ _ H O).
  - intros j H. other j k N; [discriminate|]. now apply (uS3 _ _ U) in H.
  - intros H. destruct (uCl _ _ U H) as [j X]. exists j. now rewrite IN by discriminate.
  - intros; exact Logic.I.
Qed.
(** moves of Loop after it was told to stop *)
Definition phase (o : obs) : Prop := match o with OHalt _ | OHalted _ | OEnd => True | _ => False end.
Lemma fin_inv2 t s o s' : Inv2 t s -> fin (lp s) -> fin (lp s') -> (forall x, In x o -> phase x) -> closed s' = closed s -> pcs s' = pcs s -> runned s' = runned s ->
  (forall c, In (OStart c) t -> In (OHalted c) (t ++ o) \/ 1 <= loops s' c) -> (forall c, In (OHalted c) o -> In (OHalt c) (t ++ o)) -> halting (t ++ o) s' -> NoDup (halts (t ++ o)) -> Inv2 (t ++ o) s'.
Proof.
  intros U F F' PH EC EP ER LO HH HG HN.
  assert (IN : forall x, ~ phase x -> (In x (t ++ o) <-> In x t)) by (intros x H; rewrite in_app_iff; split; [intros [X|X]; [exact X|now apply PH in X]|tauto]).
  constructor; rewrite ?EC, ?EP, ?ER.
  - intros c H. rewrite IN in H by (intros []). now apply LO.
  - intros c H. pose proof H as H'. apply in_app_or in H'. destruct H' as [X|X]; [|now apply HH]. apply in_or_app. left. now apply (uHd _ _ U).
  - exact HG.
  - exact HN.
  - intros _. destruct (uFin _ _ U F) as [k X]. exists k. now rewrite IN by (intros []).
  - intros i j. rewrite !IN by (intros []). apply (uOne _ _ U).
  - intros k. rewrite IN by (intros []). intro H. destruct (uIdle _ _ U k H) as [A B]. split; [|exact B]. intro i. rewrite EP. apply A.
  - intros k. rewrite !IN by (intros []). apply (uS1 _ _ U).
  - intros k H. apply (uS2 _ _ U) in H. destruct H. contradiction.
  - intros k H. now apply (uS3 _ _ U) in H.
  - intros H. destruct (uCl _ _ U H) as [k X]. exists k. now rewrite IN by (intros []).
  - intros; exact F'.
Qed.
Lemma step_inv2 t s e o s' : Inv t s -> Inv2 t s -> stops_once (t ++ o) -> step s e = (o, s') -> Inv2 (t ++ o) s'.
Proof.
  intros I U S. destruct (vCr _ _ I) as [NC _]. unfold step.
  assert (Q : step_live s e = (o, s') -> Inv2 (t ++ o) s').
  2:{ destruct (lp s); try exact Q. congruence. }
  assert (SAME : Inv2 (t ++ []) s) by now rewrite app_nil_r.
  assert (OS : forall c : nat, In (OStart c) [] -> 1 <= loops s c) by (intros c []).
  destruct e as [|k c|k|r|c|k| |k| |c]; cbn [step_live].
  - destruct (runned s) eqn:R; intro E; injection E as <- <-; (apply calm_inv2 with s; [exact U|plaino|cbn; lia|intros c [X|[]]; discriminate|now left|try now left|reflexivity|trivial|now left]).
    right. cbn. assert (L : lp s = LNone) by now apply (vNone _ _ I). rewrite L. tauto.
  - destruct (pcs s k) eqn:P; intro E; injection E as <- <-; try exact SAME. apply stops_last in S.
    apply calm_inv2 with s; [exact U|plaino|cbn; lia|intros x [X|[]]; discriminate|now left|now left|reflexivity|trivial|]. intro j. cbn. other j k N; [|now left]. right. rewrite P. split; [nost|split; [nost|exact S]].
  - destruct (pcs s k) eqn:P; intro E; injection E as <- <-; try exact SAME. now apply stop_inv2.
  - destruct (runned s) eqn:R; intro E; injection E as <- <-; (apply calm_inv2 with s; [exact U|plaino|cbn; lia|intros c [X|[]]; discriminate|now left|now left|reflexivity|trivial|now left]).
  - destruct (loops s c) eqn:L; intro E; injection E as <- <-; try exact SAME. apply stops_last in S. destruct S.
  - unfold step_go. destruct (pcs s k) eqn:P; try (intro E; injection E as <- <-; exact SAME).
    1-4: (assert (A : exists x, adding (pcs s k) = Some x) by (rewrite P; eexists; reflexivity); destruct A as [x A]; pose proof (none_stopped _ _ _ _ U A) as N0;
      assert (NF : ~ fin (lp s)) by (intro F; destruct (uFin _ _ U F) as [j X]; now apply N0 in X);
      assert (PP : forall p, ~ stopper p -> forall j, upd (pcs s) k p j = pcs s j \/ ~ stopper (pcs s j) /\ ~ stopper (upd (pcs s) k p j) /\ (forall i, ~ In (OStop i) t))
        by (intros p Hp j; other j k N; [right; rewrite P; split; [nost|split; [exact Hp|exact N0]]|now left])).
    + intro E; injection E as <- <-. apply calm_inv2 with s; [exact U|plaino|cbn; lia|intros d []|now left|now left|reflexivity|trivial|apply PP; nost].
    + intro E; injection E as <- <-. apply calm_inv2 with s; [exact U|plaino|cbn; lia|intros d []|now right|now left|reflexivity|trivial|apply PP; nost].
    + destruct (runned s) eqn:R; intro E; injection E as <- <-; (apply calm_inv2 with s; [exact U|plaino|cbn; lia|intros d Hd; cbn in Hd; intuition discriminate|now left|now left|reflexivity|trivial|apply PP; nost]).
    + intro E; injection E as <- <-. apply calm_inv2 with s; [exact U|plaino| |intros d [X|[X|[]]]; [|discriminate]|now left|now left|reflexivity|trivial|apply PP; nost]; cbn.
      * intro d. other d c N; lia.
      * injection X as <-. rewrite upd_same. lia.
    + assert (SK : stopper (pcs s k)) by now left. destruct (uS2 _ _ U k SK) as [O _]. rewrite (proj2 (uIdle _ _ U k O)), (uS3 _ _ U k P). intro E; injection E as <- <-.
      rewrite app_nil_r. now apply close_inv2.
  - unfold step_loop. destruct (lp s) as [| |l|c l| | |l|c l| |] eqn:L; try (intro E; injection E as <- <-; exact SAME).
    + intro E; injection E as <- <-. apply calm_inv2 with s; [exact U|plaino|cbn; lia|intros d [X|[]]; discriminate|now left|right; rewrite L; cbn; tauto|reflexivity|trivial|now left].
    + destruct l as [|c l].
      * intro E; injection E as <- <-. apply calm_inv2 with s; [exact U|plaino|cbn; lia|intros d []|now left|right; rewrite L; cbn; tauto|reflexivity|trivial|now left].
      * assert (CI : In c (todo (lp s))) by (rewrite L; now left). destruct (vTin _ _ I c CI) as [_ CS].
        destruct (crun s c) eqn:X; [apply (vC _ _ I) in X; contradiction|]. intro E; injection E as <- <-.
        apply calm_inv2 with s; [exact U|plaino|cbn; lia|intros d []|now left|right; rewrite L; cbn; tauto|reflexivity|trivial|now left].
    + intro E; injection E as <- <-. apply calm_inv2 with s; [exact U|plaino| |intros d [X|[]]|now left|right; rewrite L; cbn; tauto|reflexivity|trivial|now left]; cbn.
      * intro d. other d c N; lia.
      * injection X as <-. rewrite upd_same. lia.
    + intro E; injection E as <- <-. pose proof (uHg _ _ U) as G. unfold halting in G. rewrite L in G. rewrite app_nil_r in *.
      replace t with (t ++ []) at 1 by apply app_nil_r. apply fin_inv2 with s; trivial; rewrite ?L, ?app_nil_r; try exact Logic.I; try (intros ? []); try apply U.
      exists []. cbn. split; [reflexivity|]. split; [intros c []|]. intros c X. now apply G in X.
    + pose proof (uHg _ _ U) as G. unfold halting in G. rewrite L in G. destruct G as (d & X & Y & Z). destruct l as [|c l]; intro E; injection E as <- <-.
      * apply fin_inv2 with s; trivial; rewrite ?L; try exact Logic.I.
        -- plaino.
        -- intros x H. destruct (uLo _ _ U x H); [left; apply in_snoc; now left|now right].
        -- intros x [H|[]]. discriminate.
        -- unfold halting. cbn. rewrite X, app_nil_r. split; [intros x H; apply in_snoc; left; now apply Y|apply in_snoc; now right].
        -- rewrite halts_app. cbn. rewrite app_nil_r. apply (uHn _ _ U).
      * assert (NH : ~ In (OHalt c) t). { intro H. apply Z in H. pose proof (vNd _ _ I) as ND. rewrite X in ND. apply NoDup_remove_2 in ND. apply ND. apply in_or_app. now left. }
        apply fin_inv2 with s; trivial; rewrite ?L; try exact Logic.I.
        -- plaino.
        -- intros x H. destruct (uLo _ _ U x H); [left; apply in_snoc; now left|now right].
        -- intros x [H|[]]. discriminate.
        -- unfold halting. cbn. exists d. split; [exact X|]. split; [intros x H; apply in_snoc; left; now apply Y|]. split.
           ++ intros x H. apply in_snoc in H. destruct H as [H|H]; [left; now apply Z|right; congruence].
           ++ split; [|apply in_snoc; now right]. rewrite in_snoc. intros [H|H]; [|discriminate]. apply (uHd _ _ U) in H. contradiction.
        -- rewrite halts_app. cbn. apply NoDup_snoc; [apply (uHn _ _ U)|]. now rewrite in_halts.
  - destruct (pcs s k) eqn:P; try (intro E; injection E as <- <-; exact SAME). destruct (lp s) eqn:L; intro E; injection E as <- <-; try exact SAME. now apply exit_inv2.
  - destruct (lp s) as [| |l|c l| | |l|c l| |] eqn:L; try (intro E; injection E as <- <-; exact SAME). destruct (loops s c) as [|n] eqn:X; intro E; injection E as <- <-; try exact SAME.
    pose proof (uHg _ _ U) as G. unfold halting in G. rewrite L in G. destruct G as (d & Y & Z & W & V & T). apply fin_inv2 with s; trivial; rewrite ?L; try exact Logic.I; cbn [snd ok w_lp w_loops loops].
    + plaino.
    + intros x H. destruct (Nat.eq_dec x c) as [->|N]; [left; apply in_snoc; now right|]. rewrite upd_other by exact N. destruct (uLo _ _ U x H); [left; apply in_snoc; now left|now right].
    + intros x [H|[]]. injection H as <-. apply in_or_app. now left.
    + unfold halting. cbn. exists (d ++ [c]). split; [now rewrite <- app_assoc|]. split.
      * intros x H. apply in_snoc. apply in_snoc in H. destruct H as [H| ->]; [left; now apply Z|now right].
      * intros x H. apply in_snoc in H. destruct H as [H|H]; [|discriminate]. apply in_snoc. now apply W.
    + rewrite halts_app. cbn. rewrite app_nil_r. apply (uHn _ _ U).
  - destruct (loops s c) eqn:X; [intro E; injection E as <- <-; exact SAME|]. destruct (q s); intro E; injection E as <- <-; try exact SAME.
    apply calm_inv2 with s; [exact U|plaino|cbn; lia|intros d [Y|[]]; discriminate|now left|now left|reflexivity|trivial|now left].
Qed.

Lemma run_both es : forall t s o s', Inv t s -> Inv2 t s -> serial (t ++ o) -> stops_once (t ++ o) -> run s es = (o, s') -> Inv (t ++ o) s' /\ Inv2 (t ++ o) s'.
Proof.
  induction es as [|e es IH]; intros t s o s' I U S SO; cbn [run].
  - intro E. injection E as <- <-. now rewrite app_nil_r.
  - destruct (step s e) as [o1 s1] eqn:E1. destruct (run s1 es) as [o2 s2] eqn:E2. intro E. injection E as <- <-. rewrite app_assoc in *.
    apply (IH _ _ _ _ (step_inv _ _ _ _ _ I (serial_pre _ _ S) E1) (step_inv2 _ _ _ _ _ I U (stops_pre _ _ SO) E1) S SO E2).
Qed.
Lemma start_both es t s : start es = (t, s) -> serial t -> stops_once t -> Inv t s /\ Inv2 t s.
Proof. intros E S SO. exact (run_both es [] s_init t s init_inv init_inv2 S SO E). Qed.

(** ** Quiet states *)
Lemma quiet_live s : lp s <> LCrash -> quiet s -> forall e, internal e -> step_live s e = ([], s).
Proof. intros N Q e H. specialize (Q e H). unfold step in Q. destruct (lp s); try exact Q. congruence. Qed.
Lemma quiet_pc s k : lp s <> LCrash -> quiet s -> adding (pcs s k) = None /\ pcs s k <> TClose.
Proof.
  intros N Q. pose proof (quiet_live s N Q (Go k) Logic.I) as H. cbn [step_live] in H. unfold step_go in H.
  destruct (pcs s k) eqn:P; cbn [adding]; try (split; [reflexivity|discriminate]); exfalso; try (destruct (runned s)); try (destruct (closed s)); try discriminate H;
    apply (f_equal (fun p => pcs (snd p) k)) in H; cbn in H; rewrite ?upd_same, P in H; discriminate H.
Qed.
Lemma quiet_lp s : lp s <> LCrash -> quiet s -> match lp s with LNone | LWait | LEnd => True | LSend c _ => loops s c = 0 | _ => False end.
Proof.
  intros N Q. pose proof (quiet_live s N Q Loop Logic.I) as H. pose proof (quiet_live s N Q Take Logic.I) as H2. cbn [step_live] in H, H2. unfold step_loop in H.
  destruct (lp s) as [| |l|c l| | |l|c l| |] eqn:L; try exact Logic.I; try discriminate H.
  - destruct l as [|c l]; [|destruct (crun s c); [discriminate H|]]; apply (f_equal (fun p => lp (snd p))) in H; cbn in H; rewrite L in H; discriminate H.
  - apply (f_equal (fun p => lp (snd p))) in H; cbn in H; rewrite L in H; discriminate H.
  - destruct l; discriminate H.
  - destruct (loops s c); [reflexivity|discriminate H2].
  - congruence.
Qed.
Lemma quiet_starts t s : Inv t s -> quiet s -> runned s = true -> forall c, In c (children s) -> In (OStart c) t.
Proof.
  intros I Q R c H. destruct (vCr _ _ I) as [NC _]. pose proof (quiet_lp s NC Q) as QL.
  assert (B : begun (lp s) /\ todo (lp s) = []).
  { destruct (lp s) eqn:L; try destruct QL; cbn; try (split; [exact Logic.I|reflexivity]). apply (vNone _ _ I) in L. congruence. }
  destruct B as [B T]. destruct (vAll _ _ I B c H) as [X|[X|[k X]]]; [exact X|rewrite T in X; destruct X|].
  apply adding_late in X. destruct (quiet_pc s k NC Q) as [Y _]. congruence.
Qed.
Lemma quiet_added t s : Inv t s -> quiet s -> added t.
Proof. intros I Q k c H. destruct (vDone _ _ I k c H) as [X|X]; [|exact X]. destruct (vCr _ _ I) as [NC _]. destruct (quiet_pc s k NC Q) as [Y _]. congruence. Qed.
Lemma quiet_stops t s k : Inv t s -> Inv2 t s -> quiet s -> In (OStop k) t ->
  In (OStopped k) t /\ lp s = LEnd.
Proof.
  intros I U Q O. destruct (vCr _ _ I) as [NC _]. pose proof (quiet_lp s NC Q) as QL. destruct (uIdle _ _ U k O) as [ID R].
  assert (E : lp s = LEnd).
  { destruct (lp s) as [| |l|c l| | |l|c l| |] eqn:L; try contradiction; try reflexivity.
    - apply (vNone _ _ I) in L. congruence.
    - exfalso. destruct (uS1 _ _ U k O) as [[X|X]|X].
      + now apply (proj2 (quiet_pc s k ltac:(congruence) Q)).
      + pose proof (quiet_live s ltac:(congruence) Q (Exit k) Logic.I) as H. cbn [step_live] in H. rewrite X, L in H. discriminate H.
      + apply (uF _ _ U) in X. now rewrite L in X.
    - exfalso. pose proof (uHg _ _ U) as G. unfold halting in G. rewrite L in G. destruct G as (d & Y & Z & W & V & T).
      assert (C : In c (children s)) by (rewrite Y; apply in_or_app; right; now left). pose proof (quiet_starts _ _ I Q R c C) as SC. destruct (uLo _ _ U c SC) as [X|X]; [contradiction|lia]. }
  split; [|exact E]. destruct (uS1 _ _ U k O) as [X|X]; [|exact X]. apply (uS2 _ _ U) in X. rewrite E in X. cbn in X. tauto.
Qed.

(** ** The work left is bounded *)
Fixpoint sum (f : nat -> nat) (n : nat) : nat := match n with 0 => 0 | S n => f n + sum f n end.
Lemma sum_ext f g n : (forall k, k < n -> f k = g k) -> sum f n = sum g n.
Proof. induction n as [|n IH]; intro H; [reflexivity|]. cbn. rewrite IH by (intros; apply H; lia). rewrite (H n) by lia. reflexivity. Qed.
Lemma sum_upd {A} (w : A -> nat) (f : nat -> A) k v n : k < n -> sum (fun i => w (upd f k v i)) n + w (f k) = sum (fun i => w (f i)) n + w v.
Proof.
  induction n as [|n IH]; intro H; [lia|]. cbn. destruct (Nat.eq_dec k n) as [->|D].
  - rewrite upd_same. rewrite (sum_ext (fun i => w (upd f n v i)) (fun i => w (f i))) by (intros j L; rewrite upd_other by lia; reflexivity). lia.
  - rewrite upd_other by lia. specialize (IH ltac:(lia)). lia.
Qed.
Definition weight (p : pc) : nat := match p with ARead _ => 4 | AWrite _ _ => 3 | ATest _ => 2 | ARun _ => 1 | TClose => 2 | TExit => 1 | _ => 0 end.
Definition pend (p : pc) : nat := match p with ARead _ | AWrite _ _ => 1 | _ => 0 end.
Definition lweight (M : nat) (l : lpc) : nat :=
  match l with
  | LNone | LEnd | LCrash => 0
  | LTop => (2 * M + 2) + (2 * M + 3)
  | LTest l => (2 * length l + 1) + (2 * M + 3)
  | LRun _ l => (2 * length l + 2) + (2 * M + 3)
  | LWait => 2 * M + 3
  | LRange => 2 * M + 2
  | LHalt l => 2 * length l + 1
  | LSend _ l => 2 * length l + 2
  end.
Definition below (B : nat) (s : st) : Prop := forall k, B <= k -> pcs s k = PNew.
Definition pending (B : nat) (s : st) : nat := sum (fun k => pend (pcs s k)) B.
Definition roomy (B M : nat) (s : st) : Prop := length (children s) + pending B s <= M /\ forall k c l, pcs s k = AWrite c l -> length l + pending B s <= M.
Definition rank (B M : nat) (s : st) : nat := sum (fun k => weight (pcs s k)) B + lweight M (lp s).
Lemma step_rank B M s e : below B s -> roomy B M s -> internal e -> step s e <> ([], s) ->
  below B (snd (step s e)) /\ roomy B M (snd (step s e)) /\ rank B M (snd (step s e)) < rank B M s.
Proof.
  intros HB HR HI. unfold step. assert (Q : step_live s e <> ([], s) -> below B (snd (step_live s e)) /\ roomy B M (snd (step_live s e)) /\ rank B M (snd (step_live s e)) < rank B M s).
  2:{ destruct (lp s) eqn:L; try exact Q. intro H. now destruct H. }
  destruct HR as [R1 R2].
  assert (KB : forall k, pcs s k <> PNew -> k < B) by (intros k H; destruct (le_lt_dec B k) as [G|G]; [now apply HB in G|exact G]).
  assert (MV : forall s' k p, pcs s k <> PNew -> p <> PNew -> pcs s' = upd (pcs s) k p -> weight p + lweight M (lp s') < weight (pcs s k) + lweight M (lp s) -> pend p <= pend (pcs s k) ->
     length (children s') + pend p <= length (children s) + pend (pcs s k) \/ length (children s') + pending B s + pend p <= M + pend (pcs s k) ->
     (forall c l, p = AWrite c l -> length l + pending B s + pend p <= M + pend (pcs s k)) ->
     below B s' /\ roomy B M s' /\ rank B M s' < rank B M s).
  { intros s' k p NP NP' E W PD CH AW. specialize (KB k NP). pose proof (sum_upd pend (pcs s) k p B KB) as S1. pose proof (sum_upd weight (pcs s) k p B KB) as S2. unfold pending in *. split; [|split].
    - intros j L. rewrite E. rewrite upd_other by lia. now apply HB.
    - unfold roomy, pending. rewrite E. split; [destruct CH; lia|]. intros j c l H. other j k N; [specialize (AW c l H); lia|]. specialize (R2 j c l H). lia.
    - unfold rank. rewrite E. lia. }
  assert (ML : forall s', pcs s' = pcs s -> children s' = children s -> lweight M (lp s') < lweight M (lp s) -> below B s' /\ roomy B M s' /\ rank B M s' < rank B M s).
  { intros s' E EC W. split; [intros j L; rewrite E; now apply HB|]. split; [|unfold rank; rewrite E; lia]. unfold roomy, pending. rewrite E, EC. now split. }
  assert (LC : length (children s) <= M) by lia.
  destruct e as [|k c|k|r|c|k| |k| |c]; try destruct HI; cbn [step_live].
  - unfold step_go. destruct (pcs s k) as [|c|c l|c|c| | | |] eqn:P; cbn [snd ok]; try (intro H; now destruct H).
    + intros _. apply (MV _ k (AWrite c (children s))); rewrite ?P; cbn; try discriminate; try reflexivity; try lia. intros c0 l H. injection H as <- <-. lia.
    + intros _. specialize (R2 k c l P). apply (MV _ k (ATest c)); rewrite ?P; cbn; try discriminate; try reflexivity; try lia. right. rewrite app_length. cbn. lia.
    + intros _. destruct (runned s); cbn [snd ok]; [apply (MV _ k (ARun c))|apply (MV _ k PEnd)]; rewrite ?P; cbn; try discriminate; try reflexivity; lia.
    + intros _. apply (MV _ k PEnd); rewrite ?P; cbn; try discriminate; try reflexivity; lia.
    + intros _. destruct (runned s); [destruct (closed s)|]; cbn [snd ok]; [apply (MV _ k PPanic)|apply (MV _ k TExit)|apply (MV _ k TExit)]; rewrite ?P; cbn; try discriminate; try reflexivity; lia.
  - unfold step_loop. destruct (lp s) as [| |l|c l| | |l|c l| |] eqn:L; cbn [snd ok]; try (intro H; now destruct H).
    + intros _. apply ML; try reflexivity. cbn [snd ok w_lp lp lweight]. lia.
    + intros _. destruct l as [|c l]; [|destruct (crun s c)]; cbn [snd ok]; apply ML; try reflexivity; cbn [snd ok w_lp lp lweight length]; lia.
    + intros _. apply ML; try reflexivity. cbn [snd ok w_lp start_child lp lweight length]. lia.
    + intros _. apply ML; try reflexivity. cbn [snd ok w_lp lp lweight]. lia.
    + intros _. destruct l as [|c l]; cbn [snd ok]; apply ML; try reflexivity; cbn [snd ok w_lp lp lweight length]; lia.
  - destruct (pcs s k) as [|c|c l|c|c| | | |] eqn:P; cbn [snd ok]; try (intro H; now destruct H). destruct (lp s) eqn:L; cbn [snd ok]; try (intro H; now destruct H).
    intros _. apply (MV _ k PEnd); rewrite ?P; try discriminate; try reflexivity; cbn [snd ok w_lp w_pc lp lweight weight pend children]; lia || discriminate || (left; lia).
  - destruct (lp s) as [| |l|c l| | |l|c l| |] eqn:L; cbn [snd ok]; try (intro H; now destruct H). destruct (loops s c); cbn [snd ok]; try (intro H; now destruct H).
    intros _. apply ML; try reflexivity. cbn [snd ok w_lp w_loops lp lweight length]. lia.
Qed.
Lemma productive_bound B M es : forall s, below B s -> roomy B M s -> productive s es -> length es <= rank B M s.
Proof.
  induction es as [|e es IH]; intros s HB HR; cbn [productive length]; [lia|]. intros (A & C & D).
  destruct (step_rank B M s e HB HR A C) as (X & Y & Z). specialize (IH _ X Y D). lia.
Qed.
Lemma step_below B s e : below B s -> exists B', below B' (snd (step s e)).
Proof.
  intro H. assert (W : forall s' k p, pcs s' = upd (pcs s) k p -> exists B', below B' s').
  { intros s' k p E. exists (max B (S k)). intros j L. rewrite E, upd_other by lia. apply H. lia. }
  assert (W0 : forall s', pcs s' = pcs s -> exists B', below B' s') by (intros s' E; exists B; intros j L; rewrite E; now apply H).
  unfold step. destruct (lp s) eqn:L; try (now apply W0); destruct e; cbn [step_live]; unfold step_go, step_loop; rewrite ?L;
    repeat match goal with |- context [match ?x with _ => _ end] => destruct x end; cbn [snd ok]; first [apply W0; reflexivity|eapply W; cbn; reflexivity].
Qed.
Lemma run_below es : forall s t s' B, below B s -> run s es = (t, s') -> exists B', below B' s'.
Proof.
  induction es as [|e es IH]; intros s t s' B H; cbn [run].
  - intro E. injection E as <- <-. now exists B.
  - destruct (step s e) as [o1 s1] eqn:E1. destruct (run s1 es) as [o2 s2] eqn:E2. intro E. injection E as <- <-.
    destruct (step_below B s e H) as [B' X]. rewrite E1 in X. exact (IH _ _ _ _ X E2).
Qed.
Definition width (p : pc) : nat := match p with AWrite _ l => length l | _ => 0 end.
Lemma sum_le f n k : k < n -> f k <= sum f n.
Proof. induction n as [|n IH]; intro H; [lia|]. cbn. destruct (Nat.eq_dec k n) as [->|]; [lia|]. specialize (IH ltac:(lia)). lia. Qed.
Lemma some_room B s : below B s -> exists M, roomy B M s.
Proof.
  intro H. exists (length (children s) + pending B s + sum (fun k => width (pcs s k)) B). split; [lia|]. intros k c l P.
  assert (K : k < B) by (destruct (le_lt_dec B k) as [G|G]; [apply H in G; congruence|exact G]). pose proof (sum_le (fun k => width (pcs s k)) B k K) as X. cbn in X. rewrite P in X. cbn in X. lia.
Qed.

(** ** Requests *)
Lemma sent_app t u : sent (t ++ u) = sent t ++ sent u.
Proof. apply flat_map_app. Qed.
Lemma taken_app t u : taken (t ++ u) = taken t ++ taken u.
Proof. apply flat_map_app. Qed.
Lemma step_queue t s e o s' : sent t = taken t ++ q s -> step s e = (o, s') -> sent (t ++ o) = taken (t ++ o) ++ q s'.
Proof.
  intro H. rewrite sent_app, taken_app. unfold step. destruct (lp s) eqn:L; intro E;
    try (destruct e; cbn [step_live] in E; unfold step_go, step_loop in E; rewrite ?L in E;
      repeat match type of E with context [match ?x with _ => _ end] => destruct x eqn:? end); injection E as <- <-; cbn; rewrite ?app_nil_r; trivial; try (rewrite H, <- app_assoc; congruence); try (rewrite <- app_assoc; exact H); congruence.
Qed.
Lemma run_queue es : forall t s o s', sent t = taken t ++ q s -> run s es = (o, s') -> sent (t ++ o) = taken (t ++ o) ++ q s'.
Proof.
  induction es as [|e es IH]; intros t s o s' H; cbn [run].
  - intro E. injection E as <- <-. now rewrite app_nil_r.
  - destruct (step s e) as [o1 s1] eqn:E1. destruct (run s1 es) as [o2 s2] eqn:E2. intro E. injection E as <- <-. rewrite app_assoc. exact (IH _ _ _ _ (step_queue _ _ _ _ _ H E1) E2).
Qed.
Lemma start_queue es t s : start es = (t, s) -> sent t = taken t ++ q s.
Proof. intro E. exact (run_queue es [] s_init t s eq_refl E). Qed.

(** ** The disciplines, decided *)
Definition obs_eq : forall x y : obs, {x = y} + {x <> y}.
Proof. decide equality; apply Nat.eq_dec. Defined.
Definition inb (x : obs) (t : list obs) : bool := if in_dec obs_eq x t then true else false.
Lemma inb_ok x t : inb x t = true <-> In x t.
Proof. unfold inb. destruct (in_dec obs_eq x t) as [H|H]; split; trivial; [discriminate|intro X; now apply H in X]. Qed.
Definition addedb (t : list obs) : bool := forallb (fun o => match o with OAdd k c => inb (OAdded k c) t | _ => true end) t.
Lemma addedb_ok t : addedb t = true -> added t.
Proof. intros H k c X. unfold addedb in H. rewrite forallb_forall in H. specialize (H _ X). now apply inb_ok. Qed.
Fixpoint splits {A} (p : list A) (t : list A) : list (list A * A) := match t with [] => [] | x :: t => (p, x) :: splits (p ++ [x]) t end.
Lemma splits_in {A} (t : list A) : forall p t1 x t2, t = t1 ++ x :: t2 -> In (p ++ t1, x) (splits p t).
Proof.
  induction t as [|y t IH]; intros p t1 x t2 E; [now destruct t1|]. cbn. destruct t1 as [|z t1]; cbn in E; injection E as -> ->.
  - left. now rewrite app_nil_r.
  - right. specialize (IH (p ++ [z]) t1 x t2 eq_refl). rewrite <- app_assoc in IH. exact IH.
Qed.
Definition serialb (t : list obs) : bool := forallb (fun p => match snd p with
  | OAdd _ c => addedb (fst p) && forallb (fun o => match o with OAdd _ d => negb (d =? c) | _ => true end) (fst p) && (negb (inb ORun (fst p)) || inb OLoop (fst p))
  | ORun => addedb (fst p)
  | _ => true end) (splits [] t).
Lemma serialb_ok t : serialb t = true -> serial t.
Proof.
  intros H t1 x t2 E. unfold serialb in H. rewrite forallb_forall in H. specialize (H _ (splits_in t [] t1 x t2 E)). cbn [fst snd app] in H. destruct x; trivial; [now apply addedb_ok|].
  apply andb_prop in H. destruct H as [H H3]. apply andb_prop in H. destruct H as [H1 H2]. split; [now apply addedb_ok|]. split.
  - intros k' X. rewrite forallb_forall in H2. specialize (H2 _ X). cbn in H2. now rewrite Nat.eqb_refl in H2.
  - intro X. apply inb_ok in X. rewrite X in H3. now apply inb_ok.
Qed.
Definition no_stop (t : list obs) : bool := forallb (fun o => match o with OStop _ => false | _ => true end) t.
Lemma no_stop_ok t : no_stop t = true -> forall k, ~ In (OStop k) t.
Proof. intros H k X. unfold no_stop in H. rewrite forallb_forall in H. now specialize (H _ X). Qed.
Definition stopsb (t : list obs) : bool := forallb (fun p => match snd p with
  | OStop _ => inb ORun (fst p) && addedb (fst p) && no_stop (fst p)
  | OAdd _ _ => no_stop (fst p)
  | OUStop _ => false
  | _ => true end) (splits [] t).
Lemma stopsb_ok t : stopsb t = true -> stops_once t.
Proof.
  intros H t1 x t2 E. unfold stopsb in H. rewrite forallb_forall in H. specialize (H _ (splits_in t [] t1 x t2 E)). cbn [fst snd app] in H. destruct x; trivial; try (now apply no_stop_ok); try discriminate H.
  apply andb_prop in H. destruct H as [H H3]. apply andb_prop in H. destruct H as [H1 H2]. split; [now apply inb_ok|]. split; [now apply addedb_ok|now apply no_stop_ok].
Qed.
