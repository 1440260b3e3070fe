(** A server connection whose writer ended without an error has written everything. *)
From Coq Require Import ZArith List Bool Arith Lia Permutation.
Import ListNotations.
From Verif Require Import ServerModel ServerSpec ServerProofs ServerTrace ServerIds ServerEnd.
Open Scope Z_scope.

Definition ended (s : st) : Prop := wp s = WEnd \/ wp s = WNote \/ wp s = WDone.
Lemma drained_eff s e o s' : SI s -> drained s -> eff s e o s' -> drained s'.
Proof.
  intros I (d1 & d2 & d3 & d4 & d5) H. unfold drained.
  destruct H; fields; rewrite ?d2 in *; try (repeat split; congruence); try (cbn in *; congruence).
Qed.
Lemma ended_drained m s t : reach m s t -> ~ In OWriteErr t -> ended s -> drained s.
Proof.
  revert s t. apply (reach_ind_eff m (fun s t => ~ In OWriteErr t -> ended s -> drained s)).
  - intros _ [H|[H|H]]; discriminate.
  - intros s t e o s' I R IH H N E. assert (N0 : ~ In OWriteErr t) by (intro X; apply N, in_or_app; now left). specialize (IH N0).
    assert (OLD : ended s -> drained s') by (intro X; apply (drained_eff s e o s' I (IH X) H)).
    unfold ended in *. destruct H; fields; try (apply OLD; exact E); try (destruct E as [E|[E|E]]; discriminate); try (apply OLD; tauto).
    + elim N. apply in_or_app. right. now left.
    + apply (si_c _ I H1).
    + destruct (si_e1 _ I (or_introl H)) as (d1 & d2 & d3 & d4 & d5). now repeat split.
Qed.
Definition gone (s : st) (t : list obs) : list res := writes t ++ cur s ++ out s.
Lemma fil_req l x : for_request x = true -> filter for_request (l ++ [x]) = filter for_request l ++ [x] /\ filter for_ping (l ++ [x]) = filter for_ping l.
Proof. intro X. rewrite !filter_app. cbn [filter]. unfold for_ping at 2. rewrite X. cbn. now rewrite app_nil_r. Qed.
Lemma no_loss m s t : reach m s t -> ~ In OWriteErr t -> answers t = filter for_request (gone s t) ++ blkl s /\ pongs t = filter for_ping (gone s t).
Proof.
  induction 1 as [|s t e o s' R IH E]; [now split|]. intro N. assert (N0 : ~ In OWriteErr t) by (intro X; apply N, in_or_app; now left).
  destruct (IH N0) as [A B]. clear IH. destruct (QI_reach _ _ _ R) as [lost [_ _ _ _ q5]]. apply step_eff in E; [|now apply (SI_reach m s t)].
  unfold gone, blkl, cur, kresp in *.
  destruct E; try (elim N; apply in_or_app; right; now left);
  cbn [w_rp w_wp w_kp w_inFly w_comp w_new w_out w_closed w_buf w_notes w_csRead w_csWrite w_eof w_waits w_blk put notify out blk wp];
  rewrite ?answers_app, ?writes_app, ?pongs_app; cbn [answers writes pongs flat_map app]; rewrite ?app_nil_r;
  try (split; assumption);
  repeat match goal with E : _ \/ wp _ = _ |- _ => destruct E as [E|E] end;
  repeat match goal with E : kp ?s = _ |- _ => rewrite E in *; clear E | E : wp ?s = _ |- _ => rewrite E in *; clear E | E : out ?s = _ |- _ => rewrite E in *; clear E | E : blk ?s = _ |- _ => rewrite E in *; clear E end;
  rewrite ?app_nil_r in *; cbn [app] in *;
  try (split; assumption);
  try (rewrite <- ?app_assoc; cbn [app]; split; assumption).
  - (* E_pong *) rewrite !app_assoc in *. rewrite A, B. set (l := (writes t ++ _) ++ out s). rewrite !filter_app. cbn. now rewrite app_nil_r.
  - (* E_kput *) assert (X : for_request x = true) by (apply q5; rewrite !in_app_iff; right; now left). rewrite !app_assoc in *. destruct (fil_req ((writes t ++ match wp s with WWrite x => [x] | _ => [] end) ++ out s) x X) as [-> ->]. now rewrite A, B.
  - rewrite A, B. now split.
  - (* E_put *) assert (X : for_request x = true) by (apply q5; rewrite !in_app_iff; left; apply take_nth_perm in H0; rewrite H0; now left). rewrite !app_assoc in *. destruct (fil_req ((writes t ++ match wp s with WWrite x => [x] | _ => [] end) ++ out s) x X) as [-> ->]. now rewrite A, B.
  - rewrite A, B. now split.
  - (* E_unb *) assert (X : for_request x = true) by (apply q5; rewrite !in_app_iff; right; right; now left). rewrite !app_assoc in *. destruct (fil_req ((writes t ++ match wp s with WWrite x => [x] | _ => [] end) ++ out s) x X) as [-> ->]. now rewrite A, B.
  - (* E_unbk *) assert (X : for_request x = true) by (apply q5; rewrite !in_app_iff; right; now left). rewrite !app_assoc in *. destruct (fil_req ((writes t ++ match wp s with WWrite x => [x] | _ => [] end) ++ out s) x X) as [-> ->]. now rewrite A, B.
Qed.
Lemma ended_answered m s t : reach m s t -> ~ In OWriteErr t -> ended s -> distinct_ids t -> forall r, In r (sends t) -> answered t r.
Proof.
  induction 1 as [|s t e o s' R IH E]; intros N En Di r Sn; [destruct Sn|].
  assert (N0 : ~ In OWriteErr t) by (intro X; apply N, in_or_app; now left). assert (R' : reach m s' (t ++ o)) by exact (reachS m s t e o s' R E).
  assert (NEW : wp s' = WEnd -> answered (t ++ o) r).
  { intro W. pose proof (SI_reach _ _ _ R') as I'. destruct (ended_drained m s' (t ++ o) R' N (or_introl W)) as (d1 & d2 & _).
    assert (K : kp s' <> KDone). { intro K. pose proof (si_k1 _ I') as K1. rewrite K in K1. destruct (si_w1 _ I') as [_ X]; [congruence|]. destruct K1. congruence. }
    assert (AD : answered (t ++ o) r \/ ~ answered (t ++ o) r).
    { destruct (existsb (fun x => match res_req x with Some r' => Nat.eqb r' r | None => false end) (answers (t ++ o))) eqn:EX.
      - left. apply existsb_exists in EX. destruct EX as (x & X1 & X2). exists x. split; [exact X1|]. destruct (res_req x); [|discriminate]. apply Nat.eqb_eq in X2. now subst.
      - right. intros (x & X1 & X2). assert (existsb (fun x => match res_req x with Some r' => Nat.eqb r' r | None => false end) (answers (t ++ o)) = true); [|congruence].
        apply existsb_exists. exists x. split; [exact X1|]. rewrite X2. apply Nat.eqb_refl. }
    destruct AD as [AD|AD]; [exact AD|]. pose proof (di_fly _ _ (DI_reach _ _ _ R') Di K r Sn AD) as F. now rewrite d2 in F. }
  assert (OLD : ended s -> answered (t ++ o) r).
  { intro X. apply answered_app. left. apply (IH N0 X (distinct_app _ _ Di)).
    destruct (ended_drained m s t R N0 X) as (_ & _ & _ & _ & d5). rewrite sends_app in Sn. apply in_app_or in Sn. destruct Sn as [Sn|Sn]; [exact Sn|].
    exfalso. apply step_eff in E; [|now apply (SI_reach m s t)]. destruct E; cbn in Sn; try contradiction; congruence. }
  apply step_eff in E; [|now apply (SI_reach m s t)]. unfold ended in *.
  destruct E; cbn [w_rp w_wp w_kp w_inFly w_comp w_new w_out w_closed w_buf w_notes w_csRead w_csWrite w_eof w_waits w_blk put notify out blk wp] in *;
    try (apply NEW; reflexivity); try (apply OLD; exact En); try (apply OLD; tauto); try (destruct En as [En|[En|En]]; discriminate).
  elim N. apply in_or_app. right. now left.
Qed.
(** the writer has ended without an error: every request and every ping read has been answered on the wire *)
Lemma all_written m s t : reach m s t -> ~ In OWriteErr t -> ended s ->
  rp s = RDone /\ (forall id, In (OPing id) t -> In (OWrite (pong_of id)) t) /\
  (distinct_ids t -> forall r id, In (OReq r id) t -> exists code body, In (OComp r code body) t /\ In (OWrite (mkRes id (wire_code m code) body (Some r))) t).
Proof.
  intros R N E. destruct (ended_drained m s t R N E) as (d1 & d2 & d3 & d4 & d5). split; [exact d5|].
  destruct (no_loss m s t R N) as [A P]. destruct (QI_reach _ _ _ R) as [lost [_ _ _ q4 _]].
  assert (G : gone s t = writes t). { unfold gone, cur. rewrite d4, app_nil_r. destruct E as [E|[E|E]]; rewrite E; now rewrite app_nil_r. }
  rewrite G in A, P. unfold blkl in A. rewrite d3, app_nil_r in A. rewrite d5, app_nil_r in q4.
  assert (WR : forall x, In x (writes t) -> In (OWrite x) t).
  { intros x H. apply in_flat_map in H. destruct H as (o & H & X). destruct o; try contradiction. destruct X as [<-|[]]. exact H. }
  split.
  - intros id H. apply WR. assert (X : In (pong_of id) (pongs t)). { rewrite <- q4. apply in_map. apply in_flat_map. exists (OPing id). split; [exact H|now left]. }
    rewrite P in X. now apply filter_In in X.
  - intros Di r id H. pose proof (RI_reach _ _ _ R) as RIr. pose proof (DI_reach _ _ _ R) as D.
    assert (Q : In (r, id) (reqs t)). { apply in_flat_map. exists (OReq r id). split; [exact H|now left]. }
    apply (ri_req _ _ _ RIr) in Q. destruct Q as [Q1 Q2].
    assert (Sn : In r (sends t)). { apply (ri_sent _ _ _ RIr). split; [exact Q1|congruence]. }
    destruct (ended_answered m s t R N E Di r Sn) as (x & X1 & X2).
    assert (M : In x (map (response_of m (idOf s)) (comps t))) by (rewrite <- (ri_perm _ _ _ RIr), !in_app_iff; now left).
    apply in_map_iff in M. destruct M as ([[r' code] body] & <- & M). cbn in X2. injection X2 as ->. exists code, body. split.
    + apply in_flat_map in M. destruct M as (o & M & X). destruct o; try contradiction. destruct X as [X|[]]. injection X as -> -> ->. exact M.
    + rewrite A in X1. apply filter_In in X1. destruct X1 as [X1 _]. apply WR in X1. cbn in X1. rewrite Q2 in X1. exact X1.
Qed.

