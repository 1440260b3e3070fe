(** Invariants that relate the state of the server connection machine to what was observed. *)
From Coq Require Import ZArith List Bool Arith Lia Permutation.
Import ListNotations.
From Verif Require Import ServerModel ServerSpec ServerProofs.
Open Scope Z_scope.

Lemma reqs_app a b : reqs (a ++ b) = reqs a ++ reqs b. Proof. apply flat_map_app. Qed.
Lemma sends_app a b : sends (a ++ b) = sends a ++ sends b. Proof. apply flat_map_app. Qed.
Lemma comps_app a b : comps (a ++ b) = comps a ++ comps b. Proof. apply flat_map_app. Qed.
Lemma answers_app a b : answers (a ++ b) = answers a ++ answers b. Proof. apply flat_map_app. Qed.
Lemma pongs_app a b : pongs (a ++ b) = pongs a ++ pongs b. Proof. apply flat_map_app. Qed.
Lemma drops_app a b : drops (a ++ b) = drops a ++ drops b. Proof. apply flat_map_app. Qed.
Lemma writes_app a b : writes (a ++ b) = writes a ++ writes b. Proof. apply flat_map_app. Qed.
Lemma pings_app a b : pings (a ++ b) = pings a ++ pings b. Proof. apply flat_map_app. Qed.
Ltac traces := rewrite ?reqs_app, ?sends_app, ?comps_app, ?answers_app, ?pongs_app, ?drops_app, ?writes_app, ?pings_app in *;
  cbn [reqs sends comps answers pongs drops writes pings flat_map app] in *; rewrite ?app_nil_r in *.

Definition kresp (s : st) : list res := match kp s with KResp x _ => [x] | _ => [] end.
Definition krest (s : st) : list rid := match kp s with KCancel l | KResp _ l | KBlock l => l | _ => [] end.
Definition blkl (s : st) : list res := match blk s with Some (x, _) => [x] | None => [] end.
Definition cur (s : st) : list res := match wp s with WWrite x => [x] | _ => [] end.
Definition crid (c : rid * Z * list Z) : rid := fst (fst c).
Definition for_ping (x : res) : bool := negb (for_request x).
Lemma take_nth_perm {A} n (l : list A) x l' : take_nth n l = Some (x, l') -> Permutation l (x :: l').
Proof.
  revert n x l'. induction l as [|y l IH]; intros n x l' E; [destruct n; discriminate|]. destruct n; cbn in E.
  - injection E as -> ->. reflexivity.
  - destruct (take_nth n l) as [[z l2]|] eqn:Q; [|discriminate]. injection E as -> <-. rewrite (IH _ _ _ Q). constructor.
Qed.
Lemma ihas_in m k : ihas m k = true <-> exists r, In (k, r) m.
Proof.
  unfold ihas. rewrite existsb_exists. split.
  - intros ((k', r) & H & E). apply Z.eqb_eq in E. cbn in E. subst k'. now exists r.
  - intros [r H]. exists (k, r). split; [exact H|apply Z.eqb_refl].
Qed.
Lemma ihas_not m k : ihas m k = false -> forall r, ~ In (k, r) m.
Proof. intros H r Q. assert (ihas m k = true) by (apply ihas_in; now exists r). congruence. Qed.
Lemma idel_in m k id r : In (id, r) (idel m k) <-> In (id, r) m /\ id <> k.
Proof. unfold idel. rewrite filter_In. cbn [fst]. rewrite negb_true_iff, Z.eqb_neq. tauto. Qed.
Lemma iset_in m k r id r' : In (id, r') (iset m k r) <-> (In (id, r') m /\ id <> k) \/ (id = k /\ r' = r).
Proof. unfold iset. rewrite in_app_iff, idel_in. cbn. split; intros [H|H]; auto; [destruct H as [H|[]]; right; now injection H as <- <-|right; left; destruct H; congruence]. Qed.
Lemma updn_get {A} (f : rid -> A) k v i : updn f k v i = if Nat.eqb i k then v else f i. Proof. reflexivity. Qed.

(** ** requests and completions *)
Record RI (m : option rcmap) (s : st) (t : list obs) : Prop := {
  ri_rcm : rcm s = m;
  ri_req : forall r id, In (r, id) (reqs t) <-> (r < nreq s)%nat /\ idOf s r = id;
  ri_len : nreq s = length (reqs t);
  ri_comp : forall r, comp s r = true <-> In r (map crid (comps t));
  ri_once : NoDup (map crid (comps t));
  ri_lt : forall r, comp s r = true -> (r < nreq s)%nat;
  ri_ins : forall r, rp s = RIns r -> (r < nreq s)%nat /\ comp s r = false /\ ~ In r (sends t);
  ri_sent : forall r, In r (sends t) <-> (r < nreq s)%nat /\ rp s <> RIns r;
  ri_fly : forall id r, In (id, r) (inFly s) -> idOf s r = id /\ In r (sends t);
  ri_rest : forall r, In r (krest s) -> In r (sends t);
  ri_perm : Permutation (answers t ++ drops t ++ waits s ++ kresp s) (map (response_of m (idOf s)) (comps t)) }.
Lemma RI_init m : RI m (s_init m) [].
Proof. constructor; cbn; try easy; try constructor; try easy. all: intros; split; intro; try easy; try lia. Qed.
Ltac perm := rewrite <- ?app_assoc; cbn [app]; rewrite <- ?Permutation_middle; rewrite ?app_nil_r.
Lemma map_resp m f r v (c : list (rid * Z * list Z)) : ~ In r (map crid c) -> map (response_of m (updn f r v)) c = map (response_of m f) c.
Proof.
  intro N. apply map_ext_in. intros [[r' code] body] H. cbn. f_equal. rewrite updn_get. destruct (Nat.eqb_spec r' r) as [->|]; [|reflexivity].
  elim N. apply in_map_iff. now exists (r, code, body).
Qed.
Lemma RI_eff m s t e o s' : RI m s t -> eff s e o s' -> RI m s' (t ++ o).
Proof.
  intros I H. pose proof I as [i1 i2 i3 i4 i5 i6 i7 i8 i9 i10 i11]. unfold kresp, krest in *.
  assert (QUIET : forall s', rcm s' = rcm s -> nreq s' = nreq s -> idOf s' = idOf s -> comp s' = comp s -> inFly s' = inFly s -> waits s' = waits s ->
    kresp s' = kresp s -> (forall r, In r (krest s') -> In r (krest s)) -> rp s' = rp s -> forall o, reqs o = [] -> sends o = [] -> comps o = [] -> answers o = [] -> drops o = [] -> RI m s' (t ++ o)).
  { intros s2 Q1 Q2 Q3 Q4 Q5 Q6 Q7 Q8 Q9 o2 O1 O2 O3 O4 O5. unfold kresp, krest in *. constructor; unfold kresp, krest; rewrite ?reqs_app, ?sends_app, ?comps_app, ?answers_app, ?drops_app, ?O1, ?O2, ?O3, ?O4, ?O5, ?app_nil_r, ?Q1, ?Q2, ?Q3, ?Q4, ?Q5, ?Q6, ?Q9; try assumption.
    - intros r Hr. apply i10. now apply Q8.
    - now rewrite Q7. }
  assert (DONE : forall r, In r (sends t) -> comp s r = false -> ~ In r (map crid (comps t)) /\ (r < nreq s)%nat /\ rp s <> RIns r).
  { intros r S C. split; [intro Q; apply i4 in Q; congruence|]. now apply i8. }
  destruct H; try (rewrite app_nil_r; exact I);
    try (apply QUIET; try reflexivity; unfold kresp, krest; fields; rewrite ?H, ?H0; try reflexivity; intros ? Hr; cbn [In] in *; auto; easy).
  - (* E_req *) constructor; unfold kresp, krest; fields; traces; try assumption.
    + intros r i. rewrite in_app_iff. cbn [In]. rewrite i2, updn_get. destruct (Nat.eqb_spec r (nreq s)) as [->|N].
      * split; [intros [Q|[Q|[]]]; [lia|injection Q as <-; split; [lia|reflexivity]]|]. intros [_ <-]. right. now left.
      * split; [intros [Q|[Q|[]]]; [split; [lia|tauto]|injection Q as Q _; congruence]|]. intros [L Q]. left. split; [lia|exact Q].
    + rewrite app_length. cbn. lia.
    + intros r Q. apply i6 in Q. lia.
    + intros r Q. injection Q as <-. split; [lia|]. split; [|intro Q; apply i8 in Q; lia]. destruct (comp s (nreq s)) eqn:C; [|reflexivity]. apply i6 in C. lia.
    + intro r. rewrite i8, H. split; [intros [L _]; split; [lia|intro Q; injection Q as Q; lia]|]. intros [L Q]. split; [|discriminate]. assert (r <> nreq s) by (intros ->; now elim Q). lia.
    + intros i r Q. destruct (i9 _ _ Q) as [A B]. split; [|exact B]. rewrite updn_get. destruct (Nat.eqb_spec r (nreq s)) as [->|]; [|exact A]. apply i8 in B. lia.
    + rewrite map_resp; [exact i11|]. intro Q. apply i4, i6 in Q. lia.
  - (* E_ping *) constructor; unfold kresp, krest; fields; traces; try assumption; try discriminate.
    intro r. rewrite i8, H. split; intros [L _]; split; try exact L; discriminate.
  - (* E_comp *) assert (S : In r (sends t)) by (apply i8; now split). destruct (DONE r S H0) as (N & _ & _).
    constructor; unfold kresp, krest; fields; traces; try assumption.
    + intro r'. rewrite updn_get, map_app, in_app_iff. cbn. destruct (Nat.eqb_spec r' r) as [->|D]; [tauto|]. rewrite i4. split; [tauto|]. intros [Q|[Q|[]]]; [exact Q|congruence].
    + rewrite map_app. apply nd_snoc; assumption.
    + intros r2 Q. rewrite updn_get in Q. destruct (Nat.eqb_spec r2 r) as [D|D]; [rewrite D; exact H|now apply i6].
    + intros r2 Q. destruct (i7 r2 Q) as (A & B & C). split; [exact A|split; [|exact C]]. rewrite updn_get. destruct (Nat.eqb_spec r2 r) as [->|]; [congruence|exact B].
    + rewrite map_app. cbn [map response_of]. perm. rewrite i1. now constructor.
  - (* E_rnote *) constructor; unfold kresp, krest; fields; traces; try assumption; try discriminate.
    intro r. rewrite i8, H. split; intros [L _]; split; try exact L; discriminate.
  - (* E_pong *) constructor; unfold kresp, krest; fields; traces; try assumption; try discriminate.
    intro r. rewrite i8, H. split; intros [L _]; split; try exact L; discriminate.
  - (* E_ins *) destruct (i7 _ H) as (A & B & C). constructor; unfold kresp, krest; fields; traces; try assumption; try discriminate.
    + intro r'. rewrite in_app_iff, i8, H. cbn. split; [intros [[L Q]|[<-|[]]]; split; (assumption || discriminate)|]. intros [L _]. destruct (Nat.eq_dec r r') as [->|D]; [right; now left|]. left. split; [exact L|congruence].
    + intros i r' Q. apply iset_in in Q. rewrite in_app_iff. destruct Q as [[Q _]|[-> ->]]; [destruct (i9 _ _ Q); tauto|]. cbn. tauto.
    + intros r' Q. apply in_or_app. left. now apply i10.
  - (* E_rdone *) constructor; unfold kresp, krest; fields; traces; try assumption; try discriminate.
    intro r. rewrite i8, H. split; intros [L _]; split; try exact L; discriminate.
  - (* E_kclosed *) rewrite H in *. constructor; unfold kresp, krest; fields; traces; try assumption; try easy.
  - (* E_kopend *) rewrite H in *. constructor; unfold kresp, krest; fields; traces; try assumption; try easy.
  - (* E_ksnap *) rewrite H in *. constructor; unfold kresp, krest; fields; traces; try assumption; try easy.
    intros r Q. apply in_map_iff in Q. destruct Q as ([i r'] & <- & Q). cbn. now apply i9 in Q.
  - (* E_kfin *) rewrite H in *. constructor; unfold kresp, krest; fields; traces; try assumption; try easy.
  - (* E_kcancel *) rewrite H in *. assert (S : In r (sends t)) by (apply i10; now left). destruct (DONE r S H0) as (N & L & NI).
    constructor; unfold kresp, krest; fields; traces; try assumption.
    + intro r'. rewrite updn_get, map_app, in_app_iff. cbn. destruct (Nat.eqb_spec r' r) as [->|D]; [tauto|]. rewrite i4. split; [tauto|]. intros [Q|[Q|[]]]; [exact Q|congruence].
    + rewrite map_app. apply nd_snoc; assumption.
    + intros r2 Q. rewrite updn_get in Q. destruct (Nat.eqb_spec r2 r) as [D|D]; [rewrite D; exact L|now apply i6].
    + intros r2 Q. destruct (i7 r2 Q) as (A & B & C). split; [exact A|split; [|exact C]]. rewrite updn_get. destruct (Nat.eqb_spec r2 r) as [->|]; [congruence|exact B].
    + intros r' Q. apply i10. now right.
    + rewrite map_app. cbn [map response_of]. perm. rewrite i1. constructor. exact i11.
  - (* E_kdrop *) rewrite H in *. constructor; unfold kresp, krest; fields; traces; try assumption. rewrite <- i11. perm. reflexivity.
  - (* E_kput *) rewrite H in *. constructor; unfold kresp, krest; fields; traces; try assumption; [intros i r Q; apply idel_in in Q; now apply i9|]. rewrite <- i11. perm. reflexivity.
  - (* E_kblock *) rewrite H in *. constructor; unfold kresp, krest; fields; traces; try assumption; [intros i r Q; apply idel_in in Q; now apply i9|]. rewrite <- i11. perm. reflexivity.
  - (* E_drop *) apply take_nth_perm in H0. constructor; unfold kresp, krest; fields; traces; try assumption. rewrite <- i11, H0. perm. reflexivity.
  - (* E_put *) apply take_nth_perm in H0. constructor; unfold kresp, krest; fields; traces; try assumption; [intros i r Q; apply idel_in in Q; now apply i9|]. rewrite <- i11, H0. perm. reflexivity.
  - (* E_block *) apply take_nth_perm in H0. constructor; unfold kresp, krest; fields; traces; try assumption; [intros i r Q; apply idel_in in Q; now apply i9|]. rewrite <- i11, H0. perm. reflexivity.
Qed.

Lemma RI_reach m s t : reach m s t -> RI m s t.
Proof.
  induction 1 as [|s t e o s' R IH E]; [apply RI_init|]. apply (RI_eff m s t e); [exact IH|]. apply step_eff; [|exact E]. now apply (SI_reach m s t).
Qed.
Lemma reach_ind_eff (m : option rcmap) (P : st -> list obs -> Prop) : P (s_init m) [] ->
  (forall s t e o s', SI s -> RI m s t -> P s t -> eff s e o s' -> P s' (t ++ o)) -> forall s t, reach m s t -> P s t.
Proof.
  intros P0 PS s t R. induction R as [|s t e o s' R IH E]; [exact P0|]. apply (PS s t e); [now apply (SI_reach m s t)|now apply RI_reach|exact IH|]. apply step_eff; [|exact E]. now apply (SI_reach m s t).
Qed.

(** ** what is queued goes out in order *)
Definition queue (s : st) (t lost : list _) : list res := writes t ++ lost ++ cur s ++ out s.
Record QI (s : st) (t : list obs) (lost : list res) : Prop := {
  qi_lost : lost <> [] -> wp s = WNote \/ wp s = WDone;
  qi_ans : answers t = filter for_request (queue s t lost) ++ blkl s;
  qi_pong : pongs t = filter for_ping (queue s t lost);
  qi_pings : map pong_of (pings t) = pongs t ++ match rp s with RPing id => [pong_of id] | _ => [] end;
  qi_req : forall x, In x (waits s ++ kresp s ++ blkl s) -> for_request x = true }.
Lemma QI_eff m s t lost e o s' : SI s -> RI m s t -> QI s t lost -> eff s e o s' -> exists lost', QI s' (t ++ o) lost'.
Proof.
  intros I R Q H. destruct Q as [q1 q2 q3 q4 q5]. unfold queue, kresp, blkl, cur in *.
  assert (LOST : (wp s = WNote \/ wp s = WDone) \/ lost = []) by (destruct lost; [now right|left; apply q1; discriminate]).
  destruct H;
    try (exists lost; constructor; unfold queue, kresp, blkl, cur; fields; rewrite ?H, ?H0 in *; traces; try assumption; try (rewrite ?H, ?H0, ?H1, ?H2 in *; traces; rewrite ?app_assoc, ?filter_app; cbn; rewrite ?app_nil_r; f_equal; assumption);
      try lia; try (intro Q; specialize (q1 Q); destruct q1; congruence);
      try (intros x0 Q; apply q5; rewrite ?in_app_iff in *; cbn in *; tauto); fail).
  all: pose proof LOST as LO.
  1,2,4: (exists lost; constructor; unfold queue, kresp, blkl, cur; fields; traces; [assumption| | | |]; rewrite ?H, ?H0, ?H1, ?H2, ?H3 in *; traces).
  - (* E_ping *) assumption.
  - assumption.
  - now rewrite map_app, q4.
  - assumption.
  - (* E_comp *) assumption.
  - assumption.
  - assumption.
  - intros y Q. rewrite !in_app_iff in *. cbn [In] in Q. destruct Q as [[Q|[<-|[]]]|Q]; [apply q5|reflexivity|apply q5]; rewrite !in_app_iff; tauto.
  - (* E_pong *) rewrite q2. rewrite !app_assoc. rewrite !filter_app. cbn [filter for_request res_req]. now rewrite !app_nil_r.
  - rewrite q3. rewrite !app_assoc. rewrite !(filter_app _ _ [_]). cbn [filter for_ping for_request res_req negb]. reflexivity.
  - exact q4.
  - assumption.
  - (* E_fail *) destruct (wp s) eqn:W; try easy.
    all: assert (lost = []) by (destruct LO as [[]|]; congruence); subst lost.
    all: match goal with HW : wp _ = WWrite ?x |- _ => exists [x] | _ => exists [] end.
    all: constructor; unfold queue, kresp, blkl, cur; fields; traces; rewrite ?W in *; try assumption; intros _; now left.
  - (* E_wtake *) assert (lost = []) by (destruct LO as [[]|]; [destruct H; congruence|destruct H; congruence|assumption]). subst lost.
    exists []. constructor; unfold queue, kresp, blkl, cur; fields; traces; rewrite ?H0 in *; try assumption; try easy; destruct H as [W|W]; rewrite W in *; assumption.
  - (* E_wend *) assert (lost = []) by (destruct LO as [[]|]; [destruct H; congruence|destruct H; congruence|assumption]). subst lost.
    exists []. constructor; unfold queue, kresp, blkl, cur; fields; traces; rewrite ?H0 in *; try assumption; try easy; destruct H as [W|W]; rewrite W in *; assumption.
  - (* E_wwrite *) assert (lost = []) by (destruct LO as [[]|]; congruence). subst lost.
    exists []. constructor; unfold queue, kresp, blkl, cur; fields; traces; rewrite ?H in *; rewrite <- ?app_assoc; try assumption; try easy.
  - (* E_wdone *) exists lost. constructor; unfold queue, kresp, blkl, cur; fields; traces; rewrite ?H in *; try assumption; try easy. intros _. now right.
  - (* E_kcancel *) exists lost. constructor; unfold queue, kresp, blkl, cur; fields; traces; rewrite ?H in *; try assumption; try easy.
    intros y Q. rewrite !in_app_iff in *. cbn [In] in Q. destruct Q as [Q|[<-|Q]]; [apply q5|reflexivity|apply q5]; rewrite !in_app_iff; tauto.
  - (* E_kput *) rewrite H in *. rewrite H0 in *. assert (for_request x = true) as X by (apply q5; rewrite !in_app_iff; right; left; now left).
    exists lost. constructor; unfold queue, kresp, blkl, cur; fields; traces; rewrite ?H0 in *; traces; try assumption; try easy.
    + rewrite q2, !app_assoc, !(filter_app _ _ [_]). cbn [filter]. now rewrite X.
    + rewrite q3, !app_assoc, !(filter_app _ _ [_]). cbn [filter]. assert (for_ping x = false) as -> by (unfold for_ping; now rewrite X). now rewrite app_nil_r.
    + intros y Q. apply q5. apply in_or_app. now left.
  - (* E_kblock *) rewrite H in *. rewrite H0 in *. assert (for_request x = true) as X by (apply q5; rewrite !in_app_iff; right; left; now left).
    exists lost. constructor; unfold queue, kresp, blkl, cur; fields; traces; rewrite ?H0 in *; traces; try assumption; try easy. now rewrite q2.
  - (* E_drop *) apply take_nth_perm in H0. exists lost. constructor; unfold queue, kresp, blkl, cur; fields; traces; rewrite ?H in *; traces; try assumption; try easy.
    intros y Q. apply q5. rewrite H0. cbn. now right.
  - (* E_put *) apply take_nth_perm in H0. rewrite H in *. assert (for_request x = true) as X by (apply q5; rewrite H0; now left).
    exists lost. constructor; unfold queue, kresp, blkl, cur; fields; traces; rewrite ?H in *; traces; try assumption; try easy.
    + rewrite q2, !app_assoc, !(filter_app _ _ [_]). cbn [filter]. now rewrite X.
    + rewrite q3, !app_assoc, !(filter_app _ _ [_]). cbn [filter]. assert (for_ping x = false) as -> by (unfold for_ping; now rewrite X). now rewrite app_nil_r.
    + intros y Q. apply q5. rewrite H0. cbn. now right.
  - (* E_block *) apply take_nth_perm in H0. rewrite H in *. assert (for_request x = true) as X by (apply q5; rewrite H0; now left).
    exists lost. constructor; unfold queue, kresp, blkl, cur; fields; traces; rewrite ?H in *; traces; try assumption; try easy.
    + now rewrite q2.
    + intros y Q. rewrite !in_app_iff in Q. cbn [In] in Q. apply q5. rewrite H0, in_app_iff. cbn [In]. clear -Q. tauto.
  - (* E_unb *) rewrite H in *. assert (for_request x = true) as X by (apply q5; rewrite !in_app_iff; right; right; now left).
    exists lost. constructor; unfold queue, kresp, blkl, cur; fields; traces; rewrite ?H in *; traces; try assumption; try easy.
    + rewrite q2, !app_assoc, !(filter_app _ _ [_]). cbn [filter]. now rewrite X.
    + rewrite q3, !app_assoc, !(filter_app _ _ [_]). cbn [filter]. assert (for_ping x = false) as -> by (unfold for_ping; now rewrite X). now rewrite app_nil_r.
    + intros y Q. apply q5. rewrite !in_app_iff in *. tauto.
  - (* E_unbk *) rewrite H in *. rewrite H0 in *. assert (for_request x = true) as X by (apply q5; rewrite !in_app_iff; right; right; now left).
    exists lost. constructor; unfold queue, kresp, blkl, cur; fields; traces; rewrite ?H in *; traces; try assumption; try easy.
    + rewrite q2, !app_assoc, !(filter_app _ _ [_]). cbn [filter]. now rewrite X.
    + rewrite q3, !app_assoc, !(filter_app _ _ [_]). cbn [filter]. assert (for_ping x = false) as -> by (unfold for_ping; now rewrite X). now rewrite app_nil_r.
    + intros y Q. apply q5. rewrite !in_app_iff in *. tauto.
Qed.
Lemma QI_reach m s t : reach m s t -> exists lost, QI s t lost.
Proof.
  apply (reach_ind_eff m (fun s t => exists lost, QI s t lost)).
  - exists []. constructor; cbn; try easy.
  - intros s0 t0 e o s' I R [lost Q] H. now apply (QI_eff m s0 t0 lost e o s').
Qed.
