(** More invariants of the server connection: ids, cancellation, capacity, quiescence and termination. *)
From Coq Require Import ZArith List Bool Arith Lia Permutation.
Import ListNotations.
From Verif Require Import ServerModel ServerSpec ServerProofs ServerTrace.
Open Scope Z_scope.

Lemma answered_app t o r : answered (t ++ o) r <-> answered t r \/ answered o r.
Proof.
  unfold answered. split.
  - intros (x & H & E). rewrite answers_app in H. apply in_app_or in H. destruct H; [left|right]; now exists x.
  - intros [(x & H & E)|(x & H & E)]; exists x; rewrite answers_app; (split; [|exact E]); apply in_or_app; tauto.
Qed.
Lemma answered_none o r : answers o = [] -> ~ answered o r.
Proof. intros E (x & H & _). now rewrite E in H. Qed.
Lemma answered_one x r : answered [OAnswer x] r <-> res_req x = Some r.
Proof. split; [intros (y & [<-|[]] & E); exact E|intro E; exists x; split; [now left|exact E]]. Qed.
Lemma distinct_app t o : distinct_ids (t ++ o) -> distinct_ids t.
Proof. intros D p r id q E. apply (D p r id (q ++ o)). subst t. now rewrite <- app_assoc. Qed.

(** the completions not yet answered *)
Lemma rids_nodup m s t : RI m s t -> NoDup (map res_req (answers t ++ drops t ++ waits s ++ kresp s)).
Proof.
  intro R. apply (Permutation_NoDup (l := map Some (map crid (comps t)))).
  - rewrite map_map. symmetry. rewrite (Permutation_map res_req (ri_perm _ _ _ R)). rewrite map_map. replace (map (fun x => res_req (response_of m (idOf s) x)) (comps t)) with (map (fun x => Some (crid x)) (comps t)); [reflexivity|].
    apply map_ext. now intros [[r c] b].
  - apply FinFun.Injective_map_NoDup; [intros a b E; congruence|]. apply R.
Qed.
Lemma pending_res m s t x : RI m s t -> In x (waits s ++ kresp s) ->
  exists r, res_req x = Some r /\ ~ answered t r /\ ~ In (Some r) (map res_req (drops t)) /\ In r (sends t) /\ res_id x = idOf s r /\ comp s r = true.
Proof.
  intros R H. assert (M : In x (map (response_of m (idOf s)) (comps t))) by (rewrite <- (ri_perm _ _ _ R), !in_app_iff; rewrite in_app_iff in H; tauto).
  apply in_map_iff in M. destruct M as ([[r code] body] & <- & M). exists r. cbn. pose proof (rids_nodup _ _ _ R) as N.
  assert (ND : forall (a b : list res) y, NoDup (map res_req (a ++ b)) -> In y b -> ~ In (res_req y) (map res_req a)).
  { intros a b y Hn Hy Ha. rewrite map_app in Hn. apply in_split in Ha. destruct Ha as (u & v & E). rewrite E, <- app_assoc in Hn. cbn in Hn. apply NoDup_remove_2 in Hn. apply Hn. rewrite !in_app_iff. right. right. now apply in_map. }
  assert (C : comp s r = true) by (apply R; apply in_map_iff; now exists (r, code, body)).
  split; [reflexivity|]. split; [|split; [|split; [|split; [reflexivity|exact C]]]].
  - intros (y & Hy & E). apply (ND (answers t) (drops t ++ waits s ++ kresp s) (response_of m (idOf s) (r, code, body)) N); [apply in_or_app; now right|]. cbn. rewrite <- E. now apply in_map.
  - rewrite app_assoc in N. intro Hd. apply (ND (answers t ++ drops t) (waits s ++ kresp s) (response_of m (idOf s) (r, code, body)) N H). cbn. rewrite map_app. apply in_or_app. now right.
  - apply R. split; [now apply (ri_lt _ _ _ R)|]. intro Q. apply (ri_ins _ _ _ R) in Q. destruct Q as (_ & Q & _). congruence.
Qed.

(** ** requests in flight *)
Record DI (s : st) (t : list obs) : Prop := {
  di_cl : kp s = KDone <-> In OClosed t;
  di_fresh : forall id r, In (id, r) (inFly s) -> ~ answered t r /\ ~ In (Some r) (map res_req (drops t));
  di_id : distinct_ids t -> forall r r', (r < nreq s)%nat -> (r' < nreq s)%nat -> r <> r' -> ~ answered t r -> ~ answered t r' -> idOf s r <> idOf s r';
  di_fly : distinct_ids t -> kp s <> KDone -> forall r, In r (sends t) -> ~ answered t r -> In (idOf s r, r) (inFly s);
  di_drop : distinct_ids t -> kp s <> KDone -> drops t = [] }.
Lemma not_answered m s t r : RI m s t -> comp s r = false -> ~ answered t r /\ ~ In (Some r) (map res_req (drops t)).
Proof.
  intros R C. assert (forall x, In x (answers t ++ drops t) -> res_req x <> Some r).
  { intros x H E. assert (M : In x (map (response_of m (idOf s)) (comps t))) by (rewrite <- (ri_perm _ _ _ R), !in_app_iff; rewrite in_app_iff in H; tauto).
    apply in_map_iff in M. destruct M as ([[r' code] body] & <- & M). cbn in E. injection E as ->. assert (comp s r = true); [|congruence]. apply R. apply in_map_iff. now exists (r, code, body). }
  split.
  - intros (x & Hx & E). apply (H x); [apply in_or_app; now left|exact E].
  - rewrite in_map_iff. intros (x & E & Hx). apply (H x); [apply in_or_app; now right|exact E].
Qed.
Lemma DI_eff m s t e o s' : SI s -> RI m s t -> DI s t -> eff s e o s' -> DI s' (t ++ o).
Proof.
  intros I R D H. pose proof D as [d1 d5 d2 d3 d4].
  assert (QUIET : forall s' o, nreq s' = nreq s -> idOf s' = idOf s -> inFly s' = inFly s -> (kp s' = KDone <-> kp s = KDone) -> sends o = [] -> answers o = [] -> drops o = [] -> ~ In OClosed o -> DI s' (t ++ o)).
  { intros s2 o2 Q1 Q2 Q3 Q4 O1 O2 O3 O4.
    assert (AN : forall r, answered (t ++ o2) r <-> answered t r) by (intro r; rewrite answered_app; pose proof (answered_none o2 r O2); tauto).
    constructor; rewrite ?sends_app, ?drops_app, ?O1, ?O3, ?app_nil_r, ?Q1, ?Q2, ?Q3.
    - rewrite Q4, d1, in_app_iff. tauto.
    - intros id r Hf. rewrite AN. now apply (d5 id).
    - intros Di r r' L1 L2 N A1 A2. rewrite AN in A1, A2. apply distinct_app in Di. now apply d2.
    - intros Di K r Hr A. rewrite AN in A. rewrite Q4 in K. apply distinct_app in Di. now apply d3.
    - intros Di K. rewrite Q4 in K. apply distinct_app in Di. now apply d4. }
  assert (CLOSE : forall s', nreq s' = nreq s -> idOf s' = idOf s -> inFly s' = [] -> kp s' = KDone -> DI s' (t ++ [OClosed])).
  { intros s2 Q1 Q2 Q3 Q4.
    assert (AN : forall r, answered (t ++ [OClosed]) r <-> answered t r) by (intro r; rewrite answered_app; pose proof (answered_none [OClosed] r eq_refl); tauto).
    constructor; rewrite ?Q1, ?Q2, ?Q3; try (intros _ Q; congruence).
    - rewrite in_app_iff. split; [intros _; right; now left|now intro].
    - intros id r [].
    - intros Di r r' L1 L2 N A1 A2. rewrite AN in A1, A2. apply distinct_app in Di. now apply d2. }
  (* an answer is taken out of inFly *)
  assert (ANS : forall s' x, nreq s' = nreq s -> idOf s' = idOf s -> inFly s' = idel (inFly s) (res_id x) -> (kp s' = KDone <-> kp s = KDone) -> In x (waits s ++ kresp s) -> DI s' (t ++ [OAnswer x])).
  { intros s2 x Q1 Q2 Q3 Q4 Hx. destruct (pending_res _ _ _ _ R Hx) as (r0 & E0 & A0 & _ & S0 & I0 & _).
    constructor; rewrite ?sends_app, ?drops_app, ?Q1, ?Q2, ?Q3; cbn [sends drops flat_map]; rewrite ?app_nil_r.
    - rewrite Q4, d1, in_app_iff. cbn. split; [tauto|]. intros [?|[?|[]]]; [assumption|discriminate].
    - intros id r Hf. apply idel_in in Hf. destruct Hf as [Hf Hn]. split; [|now apply (d5 id)]. rewrite answered_app, answered_one. intros [Q|Q]; [now apply d5 in Hf|].
      assert (r = r0) by congruence. subst r. apply (ri_fly _ _ _ R) in Hf. destruct Hf as [Hf _]. congruence.
    - intros Di r r' L1 L2 N A1 A2. rewrite answered_app in A1, A2. apply distinct_app in Di. apply d2; tauto.
    - intros Di K r Hr A. rewrite answered_app, answered_one in A. rewrite Q4 in K. apply distinct_app in Di. apply idel_in. split; [apply d3; tauto|].
      rewrite I0. apply d2; try tauto; [now apply (ri_sent _ _ _ R) in Hr|now apply (ri_sent _ _ _ R) in S0|intros ->; tauto].
    - intros Di K. rewrite Q4 in K. apply distinct_app in Di. now apply d4. }
  assert (DROP : forall s' x, nreq s' = nreq s -> idOf s' = idOf s -> inFly s' = inFly s -> (kp s' = KDone <-> kp s = KDone) -> In x (waits s ++ kresp s) -> ihas (inFly s) (res_id x) = false -> DI s' (t ++ [ODrop x])).
  { intros s2 x Q1 Q2 Q3 Q4 Hx Nh. destruct (pending_res _ _ _ _ R Hx) as (r0 & E0 & A0 & _ & S0 & I0 & _). pose proof (ihas_not _ _ Nh) as Nh'.
    assert (AN : forall r, answered (t ++ [ODrop x]) r <-> answered t r) by (intro r; rewrite answered_app; pose proof (answered_none [ODrop x] r eq_refl); tauto).
    constructor; rewrite ?sends_app, ?drops_app, ?Q1, ?Q2, ?Q3; cbn [sends drops flat_map]; rewrite ?app_nil_r.
    - rewrite Q4, d1, in_app_iff. cbn. split; [tauto|]. intros [?|[?|[]]]; [assumption|discriminate].
    - intros id r Hf. rewrite AN. destruct (d5 _ _ Hf) as [A B]. split; [exact A|]. rewrite map_app, in_app_iff. cbn. intros [Q|[Q|[]]]; [tauto|]. assert (r = r0) by congruence. subst r.
      apply (Nh' r0). rewrite I0. pose proof (ri_fly _ _ _ R _ _ Hf) as [F _]. now rewrite F.
    - intros Di r r' L1 L2 N A1 A2. rewrite AN in A1, A2. apply distinct_app in Di. now apply d2.
    - intros Di K r Hr A. rewrite AN in A. rewrite Q4 in K. apply distinct_app in Di. now apply d3.
    - intros Di K. rewrite Q4 in K. apply distinct_app in Di. elim (Nh' r0). rewrite I0. now apply d3. }
  destruct H; try (rewrite app_nil_r; exact D);
    try (apply QUIET; fields; try reflexivity; rewrite ?H, ?H0; try easy; cbn; intuition congruence);
    try (apply CLOSE; reflexivity);
    try (apply ANS; fields; try reflexivity; rewrite ?H; try easy; unfold kresp; rewrite ?H; apply in_or_app; right; now left);
    try (apply DROP; fields; try reflexivity; rewrite ?H; try easy; unfold kresp; rewrite ?H; apply in_or_app; right; now left).
  - (* E_req *) assert (AN : forall r, answered (t ++ [OReq (nreq s) id]) r <-> answered t r) by (intro r; rewrite answered_app; pose proof (answered_none [OReq (nreq s) id] r eq_refl); tauto).
    constructor; fields; traces.
    + rewrite d1, in_app_iff. cbn. split; [tauto|]. intros [?|[?|[]]]; [assumption|discriminate].
    + intros i r Hf. rewrite AN. now apply (d5 i).
    + intros Di r r' L1 L2 N A1 A2. rewrite AN in A1, A2. rewrite !updn_get. assert (NEW : forall r, (r < nreq s)%nat -> idOf s r = id -> answered t r).
      { intros r1 L E. apply (Di t (nreq s) id []); [reflexivity|]. apply R. now split. }
      apply distinct_app in Di. destruct (Nat.eqb_spec r (nreq s)) as [E1|E1]; destruct (Nat.eqb_spec r' (nreq s)) as [E2|E2]; [congruence| | |].
      * intro E. apply A2. apply NEW; [lia|now symmetry].
      * intro E. apply A1. apply NEW; [lia|exact E].
      * apply d2; try assumption; lia.
    + intros Di K r Hr A. rewrite AN in A. apply distinct_app in Di. rewrite updn_get. destruct (Nat.eqb_spec r (nreq s)) as [->|N]; [|now apply d3]. apply (ri_sent _ _ _ R) in Hr. lia.
    + intros Di K. apply distinct_app in Di. now apply d4.
  - (* E_ins *) destruct (ri_ins _ _ _ R _ H) as (L0 & C0 & S0). destruct (not_answered _ _ _ _ R C0) as [A0 B0].
    assert (AN : forall r', answered (t ++ [OSend r]) r' <-> answered t r') by (intro r'; rewrite answered_app; pose proof (answered_none [OSend r] r' eq_refl); tauto).
    constructor; fields; traces.
    + rewrite d1, in_app_iff. cbn. split; [tauto|]. intros [?|[?|[]]]; [assumption|discriminate].
    + intros i r' Hf. rewrite AN. apply iset_in in Hf. destruct Hf as [[Hf _]|[-> ->]]; [now apply (d5 i)|now split].
    + intros Di r1 r2 L1 L2 N A1 A2. rewrite AN in A1, A2. apply distinct_app in Di. now apply d2.
    + intros Di K r' Hr A. rewrite AN in A. apply distinct_app in Di. apply iset_in. apply in_app_or in Hr. destruct Hr as [Hr|[<-|[]]]; [|right; now split].
      left. split; [now apply d3|]. apply d2; try assumption; [now apply (ri_sent _ _ _ R) in Hr|]. intros ->. now apply S0.
    + intros Di K. apply distinct_app in Di. now apply d4.
  - apply take_nth_perm in H0. apply DROP; try reflexivity; try assumption. rewrite H0. now left.
  - apply take_nth_perm in H0. apply ANS; try reflexivity; try assumption. rewrite H0. now left.
  - apply take_nth_perm in H0. apply ANS; try reflexivity; try assumption. rewrite H0. now left.
Qed.
Lemma DI_reach m s t : reach m s t -> DI s t.
Proof.
  apply (reach_ind_eff m DI).
  - constructor; cbn; try easy.
  - intros. now apply (DI_eff m s0 t0 e).
Qed.
