(** Calls within calls go down the tree, and what is below in the tree was made later. *)
From Coq Require Import ZArith List Bool Arith Lia.
Import ListNotations.
From Verif Require Import RequestModel.
From Verif Require Import TreeModel TreeSpec TreeProofs TreeBirth TreeCancel TreeHistory CauseSpec CauseProps TreeTidy.
Open Scope Z_scope.

(** what a call is about *)
Definition subj (f : frame) : canc :=
  match f with
  | FCas _ c | FL1 c | FL2 c | FColl c | FCall c _ => CX c
  | FD0 d | FD1 _ d => CX d
  | FN0 _ r => CR r
  | FC0 _ d => CX d
  | FA0 _ x | FA1 _ x => x
  | FLk r _ | FCk r _ | FPr r _ | FB1 r _ | FR1 r _ | FR2 r _ | FB2 r _ | FDl r _ | FPf r _ | FUl r _ => CR r
  end.
Definition under (tr : list obs) (x : canc) (f : frame) : Prop :=
  match f with
  | FCall c _ => belongs tr c x
  | FB2 r _ | FR1 r _ => match x with CX z => In (OHandle r z) tr | CR _ => False end
  | _ => False
  end.
Fixpoint chain (tr : list obs) (l : list frame) : Prop :=
  match l with
  | f :: l' => match l' with [] => True | h :: _ => under tr (subj f) h end /\ chain tr l'
  | [] => True
  end.
Lemma under_app tr o x f : under tr x f -> under (tr ++ o) x f.
Proof. destruct f; cbn; trivial; try apply belongs_app; destruct x; trivial; rewrite in_app_iff; auto. Qed.
Lemma chain_app tr o l : chain tr l -> chain (tr ++ o) l.
Proof. induction l as [|f l IH]; cbn; [trivial|]. intros [H C]. split; [|auto]. destruct l; trivial. now apply under_app. Qed.
Definition ordered (tr : list obs) (rc rr : nat -> nat) : Prop :=
  (forall k c r, In (ONew k c r) tr -> rc c < rr r)%nat /\ (forall k c d, In (OChild k c d) tr -> rc c < rc d)%nat /\ (forall r x, In (OHandle r x) tr -> rr r < rc x)%nat.
Record orderly (tr : list obs) (s : sys) : Prop := {
  o_new : forall k c r, In (ONew k c r) tr -> born (rq s r) = true /\ cborn (cx s c) = true;
  o_child : forall k c d, In (OChild k c d) tr -> cborn (cx s c) = true /\ cborn (cx s d) = true;
  o_handle : forall r x, In (OHandle r x) tr -> born (rq s r) = true /\ cborn (cx s x) = true;
  o_rk : exists rc rr n, (forall c, rc c < n)%nat /\ (forall r, rr r < n)%nat /\ ordered tr rc rr;
  o_chain : forall k, chain tr (stk s k) }.

Lemma eff_chain tr s k f o fs s1 rest : stk s k = f :: rest -> eff s k f o fs s1 -> births tr s -> kids tr s -> causes tr s -> chain tr (f :: rest) -> chain (tr ++ o) (fs ++ rest).
Proof.
  intros E H B K W C. assert (TOP : In f (stk s k)) by (rewrite E; now left).
  assert (SAME : forall f', subj f' = subj f -> chain (tr ++ o) (f' :: rest)).
  { intros f' S'. apply (chain_app _ o) in C. cbn in C |- *. rewrite S'. exact C. }
  assert (ALONE : maker f = true -> rest = []). { intro M. destruct (b_makes _ _ B _ _ TOP M) as [Q _]. rewrite E in Q. now injection Q. }
  assert (NONE : chain (tr ++ o) rest) by (apply chain_app; now destruct C).
  assert (PUSH : forall f1 f2, under (tr ++ o) (subj f1) f2 -> subj f2 = subj f -> chain (tr ++ o) (f1 :: f2 :: rest)) by (intros f1 f2 U S'; split; [exact U|now apply SAME]).
  destruct H; cbn [app]; try exact NONE; try (now apply SAME); try (rewrite ALONE by reflexivity; cbn; now auto); try (rewrite (ALONE eq_refl) in *; exact I).
  - apply PUSH; [|reflexivity]. apply under_app. cbn. replace (subj (cancel_of x)) with x by (destruct x; reflexivity). apply (w_stk _ _ W) in TOP. apply TOP. now left.
  - apply PUSH; [|reflexivity]. apply under_app. cbn. now apply (h_hc _ _ K).
  - apply PUSH; [|reflexivity]. apply under_app. cbn. now apply (h_hc _ _ K).
  - apply PUSH; [|reflexivity]. apply under_app. cbn. now apply (h_hc _ _ K).
Qed.
Lemma ordered_same tr o rc rr : (forall b, In b o -> match b with ONew _ _ _ | OChild _ _ _ | OHandle _ _ => False | _ => True end) -> ordered tr rc rr -> ordered (tr ++ o) rc rr.
Proof.
  intros N (O1 & O2 & O3). split; [|split]; intros; match goal with H : In _ (_ ++ _) |- _ => apply in_app_iff in H; destruct H as [H|H]; [eauto|apply N in H; destruct H] end.
Qed.
Lemma move_orderly tr s o s' : move s o s' -> good tr s -> births tr s -> kids tr s -> causes tr s -> orderly tr s -> orderly (tr ++ o) s'.
Proof.
  intros M G B K W [O1 O2 O3 (rc & rr & n & R1 & R2 & R3) O5]. 
  assert (KEEP : forall s', (forall r, born (rq s r) = true -> born (rq s' r) = true) -> (forall c, cborn (cx s c) = true -> cborn (cx s' c) = true) ->
    (forall b, In b o -> match b with ONew _ _ _ | OChild _ _ _ | OHandle _ _ => False | _ => True end) -> (forall k, chain (tr ++ o) (stk s' k)) -> orderly (tr ++ o) s').
  { clear s' M. intros s' P1 P2 N C. split; trivial; try (exists rc, rr, n; split; [exact R1|split; [exact R2|now apply ordered_same]]).
    all: intros; match goal with H : In _ (_ ++ _) |- _ => apply in_app_iff in H; destruct H as [H|H]; [|apply N in H; destruct H] end.
    - destruct (O1 _ _ _ H). auto.
    - destruct (O2 _ _ _ H). auto.
    - destruct (O3 _ _ H). auto. }
  destruct M as [|k f rest o fs s1 E H|k j o s' E J R|k j f o s1 J C|o s' F].
  - apply KEEP; trivial; [intros b []|]. intro k. now apply chain_app.
  - destruct (eff_stk _ _ _ _ _ _ H) as [ES EJ]. apply KEEP.
    + intros r Q. cbn. now rewrite (proj1 (eff_flags _ _ _ _ _ _ r H)).
    + intros c Q. cbn. destruct (eff_cx _ _ _ _ _ _ c H); congruence.
    + intros b I. destruct (eff_shows _ _ _ _ _ _ _ H I) as [(c & ->)|(r & a & _ & ->)]; exact Logic.I.
    + intro g. cbn. unfold fupd. destruct (Nat.eqb_spec g k) as [->|]; [|rewrite ES; now apply chain_app]. eapply eff_chain; eauto. rewrite <- E. apply O5.
  - destruct (ret_rq _ _ _ _ _ R) as (ES & EJ & EX & D & P). apply KEEP.
    + intros r Q. destruct j; cbn in R; injection R as <- <-; trivial. cbn. unfold fupd. destruct (Nat.eqb_spec r r0) as [->|]; trivial.
    + intros c Q. now rewrite EX.
    + intros b I. destruct j; cbn in R; injection R as <- <-; cbn in I; intuition subst; trivial.
    + intro g. rewrite ES. now apply chain_app.
  - assert (CH : forall s1', stk s1' = stk s -> forall g, chain (tr ++ o) (fupd (stk s1') k [f] g)).
    { intros s1' ES g. unfold fupd. destruct (Nat.eqb_spec g k) as [->|]; [cbn; auto|]. rewrite ES. now apply chain_app. }
    assert (ES : stk s1 = stk s) by (now apply calls_stk in C).
    destruct C as [c r CB NB|c d CB NB|w c|d|r a MD]; try (apply KEEP; [trivial|trivial|intros b [<-|[]]; exact Logic.I|apply (CH s); reflexivity]).
    + split; cbn [set_stk set_jb rq cx stk set_born set_rq]; [..|now apply (CH (set_born s r))].
      * intros g e q I. apply in_app_iff in I. unfold fupd. destruct I as [I|[I|[]]]; [destruct (O1 _ _ _ I); destruct (Nat.eqb_spec q r); cbn; auto|injection I as <- <- <-]. rewrite Nat.eqb_refl. cbn. auto.
      * intros g e q I. apply in_app_iff in I. destruct I as [I|[I|[]]]; [eauto|discriminate].
      * intros q x I. apply in_app_iff in I. destruct I as [I|[I|[]]]; [|discriminate]. destruct (O3 _ _ I). unfold fupd. destruct (Nat.eqb_spec q r); cbn; auto.
      * exists rc, (fupd rr r (S (rc c))), (S n). split; [intro e; specialize (R1 e); lia|]. split; [intro q; unfold fupd; destruct (Nat.eqb q r); [specialize (R1 c)|specialize (R2 q)]; lia|].
        destruct R3 as (T1 & T2 & T3). split; [|split].
        -- intros g e q I. apply in_app_iff in I. unfold fupd. destruct I as [I|[I|[]]]; [|injection I as <- <- <-; rewrite Nat.eqb_refl; lia]. destruct (O1 _ _ _ I). destruct (Nat.eqb_spec q r) as [->|]; [congruence|eauto].
        -- intros g e q I. apply in_app_iff in I. destruct I as [I|[I|[]]]; [eauto|discriminate].
        -- intros q x I. apply in_app_iff in I. destruct I as [I|[I|[]]]; [|discriminate]. destruct (O3 _ _ I). unfold fupd. destruct (Nat.eqb_spec q r) as [->|]; [congruence|auto].
    + split; cbn [set_stk set_jb rq cx stk set_par set_cx]; [..|now apply (CH (set_par s d (Some c)))].
      * intros g e q I. apply in_app_iff in I. destruct I as [I|[I|[]]]; [|discriminate]. destruct (O1 _ _ _ I). unfold fupd. destruct (Nat.eqb_spec e d); cbn; auto.
      * intros g e q I. apply in_app_iff in I. unfold fupd. destruct I as [I|[I|[]]]; [destruct (O2 _ _ _ I); destruct (Nat.eqb_spec e d); destruct (Nat.eqb_spec q d); cbn; auto|injection I as <- <- <-]. rewrite Nat.eqb_refl. destruct (Nat.eqb_spec c d); cbn; auto.
      * intros q x I. apply in_app_iff in I. destruct I as [I|[I|[]]]; [|discriminate]. destruct (O3 _ _ I). unfold fupd. destruct (Nat.eqb_spec x d); cbn; auto.
      * exists (fupd rc d (S (rc c))), rr, (S n). split; [intro q; unfold fupd; destruct (Nat.eqb q d); [specialize (R1 c)|specialize (R1 q)]; lia|]. split; [intro e; specialize (R2 e); lia|].
        destruct R3 as (T1 & T2 & T3). split; [|split].
        -- intros g e q I. apply in_app_iff in I. destruct I as [I|[I|[]]]; [|discriminate]. destruct (O1 _ _ _ I). unfold fupd. destruct (Nat.eqb_spec e d) as [->|]; [congruence|eauto].
        -- intros g e q I. apply in_app_iff in I. unfold fupd. destruct I as [I|[I|[]]].
           ++ destruct (O2 _ _ _ I). destruct (Nat.eqb_spec e d) as [->|]; [congruence|]. destruct (Nat.eqb_spec q d) as [->|]; [congruence|eauto].
           ++ injection I as <- <- <-. rewrite Nat.eqb_refl. destruct (Nat.eqb_spec c d) as [->|]; [congruence|lia].
        -- intros q x I. apply in_app_iff in I. destruct I as [I|[I|[]]]; [|discriminate]. destruct (O3 _ _ I). unfold fupd. destruct (Nat.eqb_spec x d) as [->|]; [congruence|auto].
  - assert (ES : stk s' = stk s) by (now destruct F). destruct F as [c NB|r MD Q|r MD Q|r x MD Q L NB].
    + apply KEEP; trivial; [|intros b []|intro g; rewrite ES; now apply chain_app]. intros e Q. cbn. unfold fupd. destruct (Nat.eqb_spec e c); cbn; auto.
    + apply KEEP; trivial; [|intros b []|intro g; rewrite ES; now apply chain_app]. intros e Q'. cbn. unfold fupd. destruct (Nat.eqb_spec e r) as [->|]; cbn; auto.
    + apply KEEP; trivial; [|intros b []|intro g; rewrite ES; now apply chain_app]. intros e Q'. cbn. unfold fupd. destruct (Nat.eqb_spec e r) as [->|]; cbn; auto.
    + assert (BR : forall q, born (rq s q) = true -> born (rq (set_hc (set_par s x None) r x) q) = true) by (intros q P; cbn; unfold fupd; destruct (Nat.eqb_spec q r) as [->|]; cbn; auto).
      assert (CB : forall e, cborn (cx s e) = true -> cborn (cx (set_hc (set_par s x None) r x) e) = true) by (intros e P; cbn; unfold fupd; destruct (Nat.eqb_spec e x) as [->|]; cbn; auto).
      split; [| | | |intro g; rewrite ES; now apply chain_app].
      * intros g e q I. apply in_app_iff in I. destruct I as [I|[I|[]]]; [|discriminate]. destruct (O1 _ _ _ I). auto.
      * intros g e q I. apply in_app_iff in I. destruct I as [I|[I|[]]]; [|discriminate]. destruct (O2 _ _ _ I). auto.
      * intros q e I. apply in_app_iff in I. destruct I as [I|[I|[]]]; [destruct (O3 _ _ I); auto|]. injection I as <- <-. split; [apply BR; now apply (b_made _ _ B)|]. cbn. now rewrite fupd_same.
      * exists (fupd rc x (S (rr r))), rr, (S n). split; [intro q; unfold fupd; destruct (Nat.eqb q x); [specialize (R2 r)|specialize (R1 q)]; lia|]. split; [intro e; specialize (R2 e); lia|].
        destruct R3 as (T1 & T2 & T3). split; [|split].
        -- intros g e q I. apply in_app_iff in I. destruct I as [I|[I|[]]]; [|discriminate]. destruct (O1 _ _ _ I). unfold fupd. destruct (Nat.eqb_spec e x) as [->|]; [congruence|eauto].
        -- intros g e q I. apply in_app_iff in I. destruct I as [I|[I|[]]]; [|discriminate]. destruct (O2 _ _ _ I). unfold fupd. destruct (Nat.eqb_spec e x) as [->|]; [congruence|]. destruct (Nat.eqb_spec q x) as [->|]; [congruence|eauto].
        -- intros q e I. apply in_app_iff in I. unfold fupd. destruct I as [I|[I|[]]].
           ++ destruct (O3 _ _ I). destruct (Nat.eqb_spec e x) as [->|]; [congruence|auto].
           ++ injection I as <- <-. rewrite Nat.eqb_refl. lia.
Qed.
Lemma orderly_init : orderly [] init.
Proof. split; cbn; try easy. exists (fun _ => 0%nat), (fun _ => 0%nat), 1%nat. repeat split; cbn; try easy; lia. Qed.
Lemma run_orderly es tr s : run init es = (tr, s) -> orderly tr s.
Proof.
  intro R. enough (allt tr s /\ orderly tr s) by tauto. revert es tr s R. apply run_ind.
  - split; [|apply orderly_init]. split; [apply good_init|apply births_init|apply kids_init| |apply tidy_init]. split; cbn; easy.
  - intros tr s o s' [[G B K W T] U] M. split; [|eapply move_orderly; eauto]. split; [eapply move_good|eapply move_births|eapply move_kids|eapply move_causes|eapply move_tidy]; eauto.
Qed.
