(** Requests with timeouts: what has happened. *)
From Coq Require Import ZArith List Bool Arith Lia Permutation.
Import ListNotations.
From Verif Require Import RequestModel.
From Verif Require Import TimerModel TimerSpec TimerInv TimerProofs TimerProps DueModel DueSpec DueProofs.
Open Scope Z_scope.

Section Due.
Variable home : nat -> nat.
Variable blocks : nat -> bool.
Notation step := (step home blocks).
Notation run := (run home blocks).
Notation eff := (eff home blocks).
Notation part := (part home).

(** ** the Responder is called once *)
Definition after (p : pc) : option nat := match p with Dl x _ | Pf x => Some x | _ => None end.
Lemma after_inside p x : after p = Some x -> inside p = Some x. Proof. destruct p; cbn; congruence. Qed.
Definition called (s : sys) (x : nat) : Prop := state (rq s x) = RsPerformed \/ exists g, after (at_ s g) = Some x.
Definition counted (tr : list obs) (s : sys) : Prop :=
  forall x, (delivered tr x = [] /\ ~ called s x) \/ (exists c, delivered tr x = [c]) /\ called s x.
Lemma delivered_app a b x : delivered (a ++ b) x = delivered a x ++ delivered b x.
Proof. apply flat_map_app. Qed.
Lemma called_same s s' o tr : counted tr s -> (forall x, delivered o x = []) -> (forall x, called s' x <-> called s x) -> counted (tr ++ o) s'.
Proof.
  intros H D C x. rewrite delivered_app, D, app_nil_r. destruct (H x) as [[A B]|[A B]]; [left|right]; rewrite C; auto.
Qed.
Lemma called_move s g p x : after p = after (at_ s g) -> (called (move s g p) x <-> called s x).
Proof.
  intro A. unfold called. cbn [rq move at_]. split; intros [H|(g' & H)]; auto; right; exists g'; unfold gupd in *; destruct (geq g' g) eqn:E; auto; apply geq_ok in E; subst; congruence.
Qed.
Lemma called_rq s s' x : (forall y, state (rq s' y) = RsPerformed <-> state (rq s y) = RsPerformed) -> at_ s' = at_ s -> (called s' x <-> called s x).
Proof. intros A B. unfold called. now rewrite A, B. Qed.
Lemma state_other s x z y : state (rq s x) <> RsPerformed -> z <> RsPerformed -> (state (rq (set_state s x z) y) = RsPerformed <-> state (rq s y) = RsPerformed).
Proof. intros A B. cbn [rq set_state set_rq]. unfold fupd. destruct (Nat.eqb_spec y x) as [->|]; cbn; tauto. Qed.
Lemma state_lock s x l y : state (rq (set_lock s x l) y) = state (rq s y).
Proof. cbn [rq set_lock set_rq]. unfold fupd. destruct (Nat.eqb_spec y x) as [->|]; reflexivity. Qed.
Lemma state_tset s x y : state (rq (set_tset s x) y) = state (rq s y).
Proof. cbn [rq set_tset set_rq]. unfold fupd. destruct (Nat.eqb_spec y x) as [->|]; reflexivity. Qed.

Ltac same_move A := eapply called_same; [eassumption|intro; repeat match goal with g : gor |- _ => destruct g end; reflexivity|]; intro; apply called_move; rewrite A; reflexivity.
Lemma counted_eff tr s e o s' : ctl s -> counted tr s -> eff s e o s' -> counted (tr ++ o) s'.
Proof.
  intros C K E. destruct E; try (same_move H); try (apply called_same with (s := s); [assumption|reflexivity|reflexivity]).
  - apply called_same with (s := s); [assumption|reflexivity|]. intro y. apply called_rq; [|reflexivity]. intro. apply state_other; [rewrite H; discriminate|discriminate].
  - apply called_same with (s := s); [assumption|reflexivity|]. intro y. apply called_rq; [|reflexivity]. intro. apply state_other; [rewrite H; discriminate|discriminate].
  - apply called_same with (s := s); [assumption|reflexivity|]. intro y. rewrite called_move by (cbn; now rewrite H). apply called_rq; [|reflexivity]. intro. apply state_other; [|subst z; destruct new; discriminate].
    rewrite (c_mid _ C g x) by (now rewrite H). discriminate.
  - apply called_same with (s := s); [assumption|reflexivity|]. intro y. rewrite called_move by (cbn; now rewrite H). now apply called_rq.
  - apply called_same with (s := s); [assumption|now destruct g|]. intro y. rewrite called_move by (cbn; now rewrite H). apply called_rq; [|reflexivity]. intro. apply state_other; [rewrite H0; discriminate|discriminate].
  - apply called_same with (s := s); [assumption|now destruct g|]. intro y. apply called_move. rewrite H. now destruct b.
  - apply called_same with (s := s); [assumption|reflexivity|]. intro y. rewrite called_move by (cbn; now rewrite H). apply called_rq; [|reflexivity]. intro. now rewrite state_tset.
  - apply called_same with (s := s); [assumption|now destruct g|]. intro y. rewrite called_move by (cbn; rewrite H; now destruct b). now apply called_rq.
  - apply called_same with (s := s); [assumption|reflexivity|]. intro y. rewrite called_move by (cbn; now rewrite H). apply called_rq; [|reflexivity]. intro. now rewrite state_lock.
  - apply called_same with (s := s); [assumption|reflexivity|]. intro y. rewrite called_move by (cbn; now rewrite H). apply called_rq; [|reflexivity]. intro. apply state_other; [|discriminate].
    pose proof (c_pr _ C _ _ _ H) as O. now apply open_not in O.
  - (* the Responder is called *)
    intro y. rewrite delivered_app. cbn [delivered flat_map]. rewrite app_nil_r. destruct (Nat.eqb_spec x y) as [->|N].
    + right. destruct (K y) as [[A B]|[_ [B|(g' & B)]]].
      * rewrite A. split; [exists c; reflexivity|]. right. exists g. cbn [at_ move]. now rewrite gupd_same.
      * rewrite (c_mid _ C g y) in B by (now rewrite H). discriminate.
      * pose proof (one_inside s g g' y C ltac:(now rewrite H) (after_inside _ _ B)) as ->. rewrite H in B. discriminate.
    + rewrite app_nil_r. assert (Q : called (move s g (Dl x c)) y <-> called s y).
      { unfold called. cbn [rq at_ move]. split; intros [A|(g' & A)]; auto; right; exists g'; unfold gupd in *; destruct (geq g' g) eqn:E; auto.
        - cbn in A. congruence.
        - apply geq_ok in E. subst. rewrite H in A. discriminate. }
      rewrite Q. apply K.
  - (* the state becomes RsPerformed *)
    apply called_same with (s := s); [assumption|reflexivity|]. intro y. unfold called. cbn [rq at_ move set_state set_rq]. split.
    + intros [A|(g' & A)].
      * revert A. unfold fupd. destruct (Nat.eqb_spec y x) as [->|]; intro A; [|now left]. right. exists g. now rewrite H.
      * right. exists g'. unfold gupd in A. destruct (geq g' g); [discriminate|exact A].
    + unfold fupd. destruct (Nat.eqb_spec y x) as [->|N]; [now left|]. intros [A|(g' & A)]; [now left|]. right. exists g'. rewrite gupd_other; [exact A|]. intros ->. rewrite H in A. cbn in A. congruence.
  - apply called_same with (s := s); [assumption|reflexivity|]. intro y. rewrite called_move by (cbn; now rewrite H). now apply called_rq.
  - apply called_same with (s := s); [assumption|reflexivity|]. intro y. rewrite called_move by (cbn; now rewrite H). apply called_rq; [|reflexivity]. intro. now rewrite state_lock.
Qed.

(** ** a request gets one deadline *)
Definition quietly (tr : list obs) (s : sys) (x : nat) : Prop :=
  (setting tr x = 0%nat /\ forall g, setter (at_ s g) <> Some x) \/
  (setting tr x = 1%nat /\ exists g, setter (at_ s g) = Some x /\ forall g', setter (at_ s g') = Some x -> g' = g).
Record settings (tr : list obs) (s : sys) : Prop := mkSe {
  s_one : forall x, quietly tr s x;
  s_none : forall x e, tset (rq s x) = false -> ~ deadline tr x e;
  s_t2 : forall g x d b, at_ s g = T2 x d b -> tset (rq s x) = false;
  s_t3 : forall g x d b, at_ s g = T3 x d b -> tset (rq s x) = true /\ forall e, ~ deadline tr x e }.

Lemma setting_app a b x : setting (a ++ b) x = fold_left (upd_setting x) b (setting a x).
Proof. apply fold_left_app. Qed.
Lemma one_app a b : one_at_a_time (a ++ b) -> one_at_a_time a.
Proof. intros H pre k x d post ->. apply (H pre k x d (post ++ b)). now rewrite <- app_assoc. Qed.
Lemma deadline_app a b x e : deadline (a ++ b) x e <-> deadline a x e \/ deadline b x e.
Proof. unfold deadline. now rewrite in_app_iff. Qed.

(** what does not concern SetTimeout *)
Lemma settings_same tr s o s' : settings tr s -> (forall x, fold_left (upd_setting x) o (setting tr x) = setting tr x) -> (forall x e, ~ deadline o x e) ->
  (forall x, tset (rq s' x) = tset (rq s x)) -> (forall g x d b, setter (at_ s' g) = setter (at_ s g) /\ (at_ s' g = T2 x d b <-> at_ s g = T2 x d b) /\ (at_ s' g = T3 x d b <-> at_ s g = T3 x d b)) -> settings (tr ++ o) s'.
Proof.
  intros [A B C D] F N T P. assert (SE : forall g, setter (at_ s' g) = setter (at_ s g)) by (intro g; apply (P g 0%nat 0 true)). split.
  - intro x. unfold quietly. rewrite setting_app, F. destruct (A x) as [[Q R]|[Q (g & R & V)]]; [left|right]; split; trivial; [intro g; rewrite SE; apply R|exists g; rewrite SE; split; [exact R|]; intros g' H; rewrite SE in H; auto].
  - intros x e. rewrite T, deadline_app. intros H [I|I]; [exact (B x e H I)|exact (N _ _ I)].
  - intros g x d b. destruct (P g x d b) as (_ & -> & _). rewrite T. apply C.
  - intros g x d b. destruct (P g x d b) as (_ & _ & ->). rewrite T. intro H. destruct (D _ _ _ _ H) as [H1 H2]. split; [exact H1|]. intros e. rewrite deadline_app. intros [I|I]; [exact (H2 _ I)|exact (N _ _ I)].
Qed.
Lemma move_setter s g p : setter p = None -> setter (at_ s g) = None -> forall g' x d b,
  setter (gupd (at_ s) g p g') = setter (at_ s g') /\ (gupd (at_ s) g p g' = T2 x d b <-> at_ s g' = T2 x d b) /\ (gupd (at_ s) g p g' = T3 x d b <-> at_ s g' = T3 x d b).
Proof.
  intros A B g' x d b. unfold gupd. destruct (geq g' g) eqn:E; [|tauto]. apply geq_ok in E. subst. split; [congruence|]. split; split; intro H; exfalso; [rewrite H in A|rewrite H in B|rewrite H in A|rewrite H in B]; discriminate.
Qed.
Lemma tset_state s x z y : tset (rq (set_state s x z) y) = tset (rq s y).
Proof. cbn [rq set_state set_rq]. unfold fupd. destruct (Nat.eqb_spec y x) as [->|]; reflexivity. Qed.
Lemma tset_lock s x l y : tset (rq (set_lock s x l) y) = tset (rq s y).
Proof. cbn [rq set_lock set_rq]. unfold fupd. destruct (Nat.eqb_spec y x) as [->|]; reflexivity. Qed.

(** a call of SetTimeout begins *)
Lemma settings_begin tr s s' k x d b : settings tr s -> setting tr x = 0%nat -> setter (at_ s (U k)) = None -> at_ s' = gupd (at_ s) (U k) (T1 x d b) -> (forall y, tset (rq s' y) = tset (rq s y)) ->
  settings (tr ++ [OSetTimeout k x d]) s'.
Proof.
  intros [A B C D] O F P T. split.
  - intro y. unfold quietly. rewrite setting_app, P. cbn [fold_left upd_setting]. destruct (Nat.eqb_spec x y) as [->|N].
    + right. rewrite O. split; [reflexivity|]. exists (U k). rewrite gupd_same. split; [reflexivity|]. intros g' H. destruct (geq_dec g' (U k)) as [|NE]; [assumption|]. rewrite gupd_other in H by assumption.
      destruct (A y) as [[_ R]|[R _]]; [elim (R _ H)|congruence].
    + destruct (A y) as [[Q R]|[Q (g & R & V)]]; [left|right]; split; trivial.
      * intro g. unfold gupd. destruct (geq g (U k)); [cbn; congruence|apply R].
      * exists g. assert (g <> U k) by (intros ->; congruence). rewrite gupd_other by assumption. split; [exact R|]. intros g' H'. unfold gupd in H'. destruct (geq g' (U k)); [cbn in H'; congruence|auto].
  - intros y e. rewrite T, deadline_app. intros H [I|I]; [exact (B y e H I)|]. destruct I as [I|[]]. discriminate.
  - intros g y d' b'. rewrite P, T. unfold gupd. destruct (geq g (U k)); [discriminate|apply C].
  - intros g y d' b'. rewrite P, T. unfold gupd. destruct (geq g (U k)); [discriminate|]. intro H. destruct (D _ _ _ _ H) as [H1 H2]. split; [exact H1|]. intros e. rewrite deadline_app. intros [I|[I|[]]]; [exact (H2 _ I)|discriminate].
Qed.
(** it ends *)
Lemma settings_end tr s s' k x v p : settings tr s -> setter (at_ s (U k)) = Some x -> setter p = None -> at_ s' = gupd (at_ s) (U k) p -> (forall y, tset (rq s' y) = tset (rq s y)) ->
  (v = [] \/ exists e, v = [OTimer (Armed x e)] /\ tset (rq s x) = true) ->
  settings (tr ++ v ++ [OTimeoutSet k x]) s'.
Proof.
  intros [A B C D] F PN P T V. split.
  - intro y. unfold quietly. rewrite setting_app, P, fold_left_app.
    assert (Q0 : fold_left (upd_setting y) v (setting tr y) = setting tr y) by (destruct V as [->|(e & -> & _)]; reflexivity). rewrite Q0. cbn [fold_left upd_setting]. destruct (Nat.eqb_spec x y) as [->|N].
    + destruct (A y) as [[_ R]|[R (g & G1 & G2)]]; [elim (R _ F)|]. pose proof (G2 _ F) as <-. left. rewrite R. split; [reflexivity|]. intros g' H. unfold gupd in H. destruct (geq g' (U k)) eqn:E; [congruence|]. apply G2 in H. subst. rewrite geq_refl in E. discriminate.
    + destruct (A y) as [[Q R]|[Q (g & R & W)]]; [left|right]; split; trivial.
      * intro g. unfold gupd. destruct (geq g (U k)); [congruence|apply R].
      * exists g. assert (g <> U k) by (intros ->; congruence). rewrite gupd_other by assumption. split; [exact R|]. intros g' H'. unfold gupd in H'. destruct (geq g' (U k)); [congruence|auto].
  - intros y e. rewrite T, deadline_app. intros H [I|I]; [exact (B y e H I)|]. unfold deadline in I. rewrite in_app_iff in I. destruct I as [I|[I|[]]]; [|discriminate]. destruct V as [->|(f & -> & TS)]; [destruct I|]. destruct I as [I|[]]. injection I as -> ->. congruence.
  - intros g y d' b'. rewrite P, T. unfold gupd. destruct (geq g (U k)); [intros ->; discriminate|apply C].
  - intros g y d' b'. rewrite P, T. unfold gupd. destruct (geq g (U k)) eqn:E; [intros ->; discriminate|]. intro H. destruct (D _ _ _ _ H) as [H1 H2]. split; [exact H1|]. intros e. rewrite deadline_app. intros [I|I]; [exact (H2 _ I)|].
    unfold deadline in I. rewrite in_app_iff in I. destruct I as [I|[I|[]]]; [|discriminate]. destruct V as [->|(f & -> & TS)]; [destruct I|]. destruct I as [I|[]]. injection I as -> _.
    destruct (A y) as [[_ R]|[_ (g0 & _ & G2)]]; [elim (R _ F)|]. pose proof (G2 _ F) as Q1. assert (Q2 : g = g0) by (apply G2; now rewrite H). rewrite Q2, <- Q1, geq_refl in E. discriminate.
Qed.

Ltac no_dead := intros ? ? I; cbn in I; intuition discriminate.
Lemma settings_eff tr s e o s' : ctl s -> settings tr s -> eff s e o s' -> one_at_a_time (tr ++ o) -> settings (tr ++ o) s'.
Proof.
  intros C K E O. destruct E.
  - apply (settings_same _ s); trivial; [no_dead|]. intros; tauto.
  - apply (settings_same _ s); trivial; [no_dead|]. intros; tauto.
  - apply (settings_same _ s); trivial; [no_dead|]. apply (move_setter s); [reflexivity|now rewrite H].
  - apply (settings_begin _ s _ k x d false); trivial; [exact (O tr k x d [] eq_refl)|now rewrite H].
  - apply (settings_same _ s); trivial; [no_dead|]. apply (move_setter s); [reflexivity|now rewrite H].
  - apply (settings_same _ s); trivial; [no_dead|apply tset_state|intros; tauto].
  - apply (settings_same _ s); trivial; [no_dead|apply tset_state|intros; tauto].
  - apply (settings_same _ s); trivial; [no_dead|apply tset_state|apply (move_setter s); [reflexivity|now rewrite H]].
  - apply (settings_same _ s); trivial; [no_dead|apply (move_setter s); [reflexivity|now rewrite H]].
  - destruct (loop_not s g C) as (k & ->); [right; now rewrite H|]. apply (settings_begin _ s _ k x d true); trivial; [exact (O tr k x d [] eq_refl)|now rewrite H|apply tset_state].
  - apply (settings_same _ s); trivial; [no_dead|apply (move_setter s); [reflexivity|now rewrite H]].
  - apply (settings_same _ s); trivial; [no_dead|apply (move_setter s); [reflexivity|now rewrite H]].
  - apply (settings_same _ s); trivial; [now destruct g|destruct g; no_dead|apply (move_setter s); [reflexivity|now rewrite H]].
  - (* T1 to T2 *)
    rewrite app_nil_r. destruct K as [A B K2 K3]. split; cbn [rq at_ move].
    + intro y. assert (SE : forall g', setter (gupd (at_ s) g (T2 x d b) g') = setter (at_ s g')) by (intro g'; unfold gupd; destruct (geq g' g) eqn:E; [apply geq_ok in E; subst; now rewrite H|reflexivity]).
      unfold quietly. cbn [at_ move set_tset set_rq]. destruct (A y) as [[Q R]|[Q (g0 & R & V)]]; [left|right]; split; trivial; [intro g'; rewrite SE; apply R|exists g0; rewrite SE; split; [exact R|]; intros g' H'; rewrite SE in H'; auto].
    + exact B.
    + intros g' y d' b'. unfold gupd. destruct (geq g' g); [intro Q; injection Q as <- _ _; assumption|apply K2].
    + intros g' y d' b'. unfold gupd. destruct (geq g' g); [discriminate|apply K3].
  - destruct (loop_not s g C) as (k & ->); [left; rewrite H; discriminate|]. apply (settings_end tr s _ k x [] (if b then Sq x else Free)); trivial; [now rewrite H|now destruct b|now left].
  - (* T2 to T3 *)
    rewrite app_nil_r. destruct K as [A B K2 K3]. pose proof (K2 _ _ _ _ H) as T. split; cbn [rq at_ move set_tset set_rq].
    + intro y. assert (SE : forall g', setter (gupd (at_ s) g (T3 x d b) g') = setter (at_ s g')) by (intro g'; unfold gupd; destruct (geq g' g) eqn:E; [apply geq_ok in E; subst; now rewrite H|reflexivity]).
      unfold quietly. cbn [at_ move set_tset set_rq]. destruct (A y) as [[Q R]|[Q (g0 & R & V)]]; [left|right]; split; trivial; [intro g'; rewrite SE; apply R|exists g0; rewrite SE; split; [exact R|]; intros g' H'; rewrite SE in H'; auto].
    + intros y e. unfold fupd. destruct (Nat.eqb_spec y x) as [->|]; [discriminate|apply B].
    + intros g' y d' b'. unfold gupd. destruct (geq g' g) eqn:E; [discriminate|]. intro Q. unfold fupd. destruct (Nat.eqb_spec y x) as [->|]; [|now apply (K2 g' y d' b')].
      exfalso. destruct (A x) as [[_ R]|[_ (g0 & _ & G2)]]; [apply (R g); now rewrite H|]. assert (g = g0) by (apply G2; now rewrite H). assert (g' = g0) by (apply G2; now rewrite Q). subst. rewrite geq_refl in E. discriminate.
    + intros g' y d' b'. unfold gupd. destruct (geq g' g) eqn:E.
      * intro Q. injection Q as <- _ _. rewrite fupd_same. split; [reflexivity|]. intros e. exact (B x e T).
      * intro Q. destruct (K3 _ _ _ _ Q) as [Q1 Q2]. split; [|exact Q2]. unfold fupd. now destruct (Nat.eqb y x).
  - destruct (loop_not s g C) as (k & ->); [left; rewrite H; discriminate|]. apply (settings_end tr s _ k x [OTimer (Armed x (now + d))] (if b then Sq x else Free)); trivial; [now rewrite H|now destruct b|]. right. eexists. split; [reflexivity|]. exact (proj1 (s_t3 _ _ K _ _ _ _ H)).
  - apply (settings_same _ s); trivial; [no_dead|apply (move_setter s); [reflexivity|now rewrite H]].
  - apply (settings_same _ s); trivial; [no_dead|apply (move_setter s); [reflexivity|now rewrite H]].
  - apply (settings_same _ s); trivial; [no_dead|apply tset_lock|apply (move_setter s); [reflexivity|now rewrite H]].
  - apply (settings_same _ s); trivial; [no_dead|apply (move_setter s); [reflexivity|now rewrite H]].
  - apply (settings_same _ s); trivial; [no_dead|apply (move_setter s); [reflexivity|now rewrite H]].
  - apply (settings_same _ s); trivial; [no_dead|apply tset_state|apply (move_setter s); [reflexivity|now rewrite H]].
  - apply (settings_same _ s); trivial; [no_dead|apply (move_setter s); [reflexivity|now rewrite H]].
  - apply (settings_same _ s); trivial; [no_dead|apply (move_setter s); [reflexivity|now rewrite H]].
  - apply (settings_same _ s); trivial; [no_dead|apply tset_state|apply (move_setter s); [reflexivity|now rewrite H]].
  - apply (settings_same _ s); trivial; [no_dead|apply (move_setter s); [reflexivity|now rewrite H]].
  - apply (settings_same _ s); trivial; [no_dead|apply tset_lock|apply (move_setter s); [reflexivity|now rewrite H]].
Qed.
End Due.
