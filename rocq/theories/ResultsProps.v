(** C155: Results of a MultiRequest, called by several goroutines. *)
From Coq Require Import List Bool Arith Lia Permutation.
Import ListNotations.
From Verif Require Import ResultsModel ResultsSpec.

Lemma put_length : forall {A} (l : list A) i x, length (put l i x) = length l.
Proof. induction l as [|y l IH]; intros [|i] x; cbn; auto. Qed.
Lemma put_same : forall {A} (l : list A) i x y, nth_error l i = Some y -> nth_error (put l i x) i = Some x.
Proof. induction l as [|z l IH]; intros [|i] x y H; try discriminate; cbn in *; eauto. Qed.
Lemma put_other : forall {A} (l : list A) i j x, i <> j -> nth_error (put l i x) j = nth_error l j.
Proof. induction l as [|z l IH]; intros [|i] [|j] x H; cbn in *; auto; congruence. Qed.
(** the numbers of the answered requests *)
Fixpoint ids (k : nat) (l : list bool) : list nat := match l with [] => [] | b :: l => (if b then [k] else []) ++ ids (S k) l end.
Lemma ids_put : forall l k i, nth_error l i = Some false -> Permutation (ids k (put l i true)) ((k + i) :: ids k l).
Proof.
  induction l as [|b l IH]; intros k [|i] H; try discriminate; cbn in *.
  - injection H as ->. rewrite Nat.add_0_r. reflexivity.
  - rewrite (IH (S k) i H). replace (S k + i) with (k + S i) by lia. destruct b; cbn; [constructor|reflexivity].
Qed.
Lemma ids_le : forall l k, length (ids k l) <= length l.
Proof. induction l as [|b l IH]; intros k; cbn; [lia|]. specialize (IH (S k)). destruct b; cbn; lia. Qed.
Lemma ids_all : forall l k, length (ids k l) = length l -> ids k l = seq k (length l) /\ Forall (eq true) l.
Proof.
  induction l as [|b l IH]; intros k H; cbn in *; [auto|]. pose proof (ids_le l (S k)). destruct b; cbn in *; [|lia]. destruct (IH (S k)) as [E F]; [lia|]. rewrite E. auto.
Qed.
Lemma all_ids : forall l k, Forall (eq true) l -> length (ids k l) = length l.
Proof. intros l k H. revert k. induction H as [|b l <- _ IH]; intros k; cbn; auto. Qed.

(** ** the invariant *)
Definition told (r : nat) (s : st) : Prop := held s = [] /\ exists x l, rets s = x :: l /\ Permutation x (seq 0 r) /\ Forall (eq []) l.
Record inv (r : nat) (s : st) : Prop := {
  i_total : total s = r;
  i_count : c s = length (ids 0 (answered s));
  i_early : c s < r -> rets s = [] /\ (forall g, nth_error (callers s) g <> Some CWoken);
  i_kept : rets s = [] /\ Permutation (held s) (ids 0 (answered s)) \/ told r s;
  i_bit : forall g, is_asleep s g -> waits s = true
}.
Lemma inv_start : forall r n, inv r (start r n).
Proof.
  intros r n. assert (E : forall k, ids k (repeat false r) = []) by (induction r; intros; cbn; auto). constructor; cbn.
  - unfold total. cbn. now rewrite repeat_length.
  - now rewrite E.
  - intros _. split; [reflexivity|]. intros g X. apply nth_error_In, repeat_spec in X. discriminate.
  - left. rewrite E. auto.
  - unfold is_asleep. cbn. intros g X. apply nth_error_In, repeat_spec in X. discriminate.
Qed.
Lemma finish_inv : forall r s g, inv r s -> r <= c s -> (forall h, h <> g -> is_asleep s h -> waits s = true) -> inv r (finish s g).
Proof.
  intros r s g [T C E K B] CR W. unfold total in *. constructor; unfold total, finish, is_asleep in *; cbn; auto.
  - intros X. lia.
  - right. split; [reflexivity|]. cbn. destruct K as [[K1 K2]|[K1 (x & l & K2 & K3 & K4)]].
    + exists (held s), []. rewrite K1. split; [reflexivity|]. split; [|constructor]. rewrite K2. pose proof (ids_le (answered s) 0).
      destruct (ids_all (answered s) 0) as [Z _]; [lia|]. rewrite Z. rewrite T. reflexivity.
    + exists x, (l ++ [held s]). rewrite K2, K1. split; [reflexivity|]. split; [exact K3|]. apply Forall_app. auto.
  - intros h X. destruct (Nat.eq_dec h g) as [->|N].
    + destruct (nth_error (callers s) g) eqn:Y; [rewrite (put_same _ _ _ _ Y) in X; discriminate|]. apply nth_error_None in Y.
      assert (Z : nth_error (put (callers s) g COut) g = None) by (apply nth_error_None; now rewrite put_length). congruence.
    + rewrite put_other in X by congruence. eauto.
Qed.
Lemma signal_cases : forall l g l', signal l g = Some l' -> (l' = l /\ existsb asleep l = false) \/ (nth_error l g = Some CSleep /\ l' = put l g CWoken).
Proof.
  intros l g l' H. unfold signal in H. destruct (existsb asleep l); [|injection H as <-; auto]. destruct (nth_error l g) as [[]|]; try discriminate. injection H as <-. auto.
Qed.
Lemma inv_step : forall r s w s', inv r s -> step s w = Some s' -> inv r s'.
Proof.
  intros r s [i g|g] s' V H; cbn in H.
  - destruct V as [T C E K B]. unfold respond in H. destruct (nth_error (answered s) i) as [[]|] eqn:N; try discriminate.
    remember ((S (c s) =? total s) && waits s) as q eqn:Q.
    assert (LT : c s < r).
    { pose proof (ids_put _ 0 i N) as P. apply Permutation_length in P. pose proof (ids_le (put (answered s) i true) 0) as L. rewrite put_length in L. cbn in P. unfold total in T. lia. }
    destruct (E LT) as [E1 E2]. destruct K as [[K1 K2]|[_ (x & l & K2 & _)]]; [|congruence].
    assert (S1 : exists l, s' = mkSt (held s ++ [i]) (S (c s)) (waits s) (put (answered s) i true) l (rets s) /\
      (l = callers s \/ S (c s) = total s /\ nth_error (callers s) g = Some CSleep /\ l = put (callers s) g CWoken)).
    { destruct q.
      - symmetry in Q. apply andb_prop in Q as [Q1 Q2]. apply Nat.eqb_eq in Q1. destruct (signal (callers s) g) as [l|] eqn:X; [|discriminate]. injection H as <-. exists l.
        split; [reflexivity|]. destruct (signal_cases _ _ _ X) as [[-> _]|[Y ->]]; auto.
      - injection H as <-. exists (callers s). auto. }
    destruct S1 as (l & -> & D). constructor; unfold total, is_asleep in *; cbn [answered held c waits callers rets] in *.
    + now rewrite put_length.
    + rewrite (Permutation_length (ids_put _ 0 i N)). cbn. lia.
    + intros X. split; [exact E1|]. destruct D as [->|(D & _)]; [exact E2|lia].
    + left. split; [exact K1|]. rewrite (ids_put _ 0 i N). cbn. rewrite K2. symmetry. apply Permutation_cons_append.
    + intros h X. destruct D as [->|(_ & Y & ->)]; [eauto|]. destruct (Nat.eq_dec h g) as [->|NE]; [eauto|]. rewrite put_other in X by congruence. eauto.
  - unfold results in H. destruct (nth_error (callers s) g) as [[]|] eqn:N; try discriminate; injection H as <-.
    + cbn [c total answered]. unfold total. cbn [answered]. destruct V as [T C E K B]. unfold total in T. rewrite T. destruct (c s <? r) eqn:X.
      * apply Nat.ltb_lt in X. destruct (E X) as [E1 E2]. constructor; unfold total, is_asleep in *; cbn in *; auto. intros _. split; [exact E1|].
        intros h. destruct (Nat.eq_dec h g) as [->|NE]; [rewrite (put_same _ _ _ _ N); discriminate|]. rewrite put_other by congruence. apply E2.
      * apply Nat.ltb_ge in X. apply finish_inv; [|exact X|reflexivity]. constructor; unfold total, is_asleep in *; cbn in *; auto.
    + apply finish_inv; [exact V| |intros h _; apply (i_bit _ _ V)]. destruct (Nat.le_gt_cases r (c s)) as [L|L]; [exact L|]. destruct (proj2 (i_early _ _ V L) g N).
Qed.
Lemma inv_run : forall r ws s s', inv r s -> run s ws = Some s' -> inv r s'.
Proof.
  intros r. induction ws as [|w ws IH]; intros s s' V E; cbn in E; [now injection E as <-|]. destruct (step s w) as [s1|] eqn:X; [|discriminate]. eapply IH; [eapply inv_step; eauto|exact E].
Qed.
Lemma inv_reachable : forall r n s, reachable r n s -> inv r s.
Proof. intros r n s [ws E]. eapply inv_run; [apply inv_start|exact E]. Qed.

(** For all schedules and any number of callers: no call returns before all requests are answered; the first that returns gets all the
    answers, each once, and all others get nothing. *)
Theorem C155_one_gets_all : forall r n s, reachable r n s -> rets s <> [] ->
  all_answered s /\ exists x l, rets s = x :: l /\ Permutation x (seq 0 r) /\ Forall (eq []) l.
Proof.
  intros r n s H NE. pose proof (inv_reachable _ _ _ H) as [T C E K B]. split.
  - destruct (Nat.le_gt_cases r (c s)) as [L|L]; [|destruct (E L); contradiction]. unfold total in T. pose proof (ids_le (answered s) 0).
    apply (ids_all (answered s) 0). lia.
  - destruct K as [[K _]|[_ K]]; [contradiction|exact K].
Qed.
Lemma full : forall r s, inv r s -> all_answered s -> c s = r.
Proof. intros r s [T C E K B] F. rewrite C, (all_ids _ _ F). exact T. Qed.
Lemma none_left : forall s i g, all_answered s -> respond s i g = None.
Proof.
  intros s i g F. unfold respond. destruct (nth_error (answered s) i) as [[]|] eqn:N; auto. unfold all_answered in F. rewrite Forall_forall in F. specialize (F _ (nth_error_In _ _ N)). discriminate.
Qed.
(** A goroutine that still waits when all requests are answered waits for ever. *)
Lemma forever : forall r s, inv r s -> all_answered s -> forall w s', step s w = Some s' -> all_answered s' /\ forall g, is_asleep s g <-> is_asleep s' g.
Proof.
  intros r s V F [i h|h] s' H; cbn in H; [rewrite none_left in H by exact F; discriminate|]. pose proof (full _ _ V F) as C. pose proof (i_total _ _ V) as T.
  unfold results in H. destruct (nth_error (callers s) h) as [[]|] eqn:N; try discriminate; injection H as <-;
    (assert (Z : forall g, is_asleep s g <-> nth_error (put (callers s) h COut) g = Some CSleep);
     [intros g; unfold is_asleep; destruct (Nat.eq_dec g h) as [->|NE]; [rewrite (put_same _ _ _ _ N), N; split; discriminate|rewrite put_other by congruence; reflexivity]|]).
  - cbn [c total answered]. unfold total in *. cbn [answered]. rewrite C, T, Nat.ltb_irrefl. split; [exact F|exact Z].
  - split; [exact F|exact Z].
Qed.
Theorem C155_waits_for_ever : forall r n s g, reachable r n s -> all_answered s -> is_asleep s g -> forall s', leads s s' -> is_asleep s' g.
Proof.
  intros r n s g H F S s' [ws E]. pose proof (inv_reachable _ _ _ H) as V. clear H. revert s V F S E. induction ws as [|w ws IH]; intros s V F S E; cbn in E; [now injection E as <-|].
  destruct (step s w) as [s1|] eqn:X; [|discriminate]. destruct (forever _ _ V F _ _ X) as [F1 Z]. apply (IH s1 (inv_step _ _ _ _ V X) F1); [now apply Z|exact E].
Qed.
(** The last answer wakes exactly one of those that wait. *)
Lemma sleep_put : forall l g, nth_error l g = Some CSleep -> S (length (filter asleep (put l g CWoken))) = length (filter asleep l).
Proof.
  induction l as [|p l IH]; intros [|g] H; try discriminate; cbn in *; [injection H as ->; reflexivity|]. destruct (asleep p); cbn; rewrite IH by exact H; reflexivity.
Qed.
Lemma no_sleep : forall l, existsb asleep l = false -> length (filter asleep l) = 0.
Proof. induction l as [|p l IH]; intros H; cbn in *; [reflexivity|]. apply orb_false_iff in H as [-> H]. auto. Qed.
Lemma some_sleep : forall l, (forall g, nth_error l g <> Some CSleep) -> existsb asleep l = false.
Proof.
  intros l H. destruct (existsb asleep l) eqn:X; [|reflexivity]. apply existsb_exists in X as ([] & Y & Z); try discriminate. apply In_nth_error in Y as [g Y]. destruct (H g Y).
Qed.
Lemma last_answer : forall r s i g s', inv r s -> step s (A i g) = Some s' -> all_answered s' ->
  (existsb asleep (callers s) = false /\ callers s' = callers s) \/ (nth_error (callers s) g = Some CSleep /\ callers s' = put (callers s) g CWoken).
Proof.
  intros r s i g s' V H F. pose proof (inv_step _ _ _ _ V H) as V'. pose proof (full _ _ V' F) as C. pose proof (i_total _ _ V) as T. cbn in H. unfold respond in H.
  destruct (nth_error (answered s) i) as [[]|]; try discriminate. remember ((S (c s) =? total s) && waits s) as q eqn:Q. destruct q.
  - destruct (signal (callers s) g) as [l|] eqn:X; [|discriminate]. injection H as <-. cbn. destruct (signal_cases _ _ _ X) as [[-> Y]|[Y ->]]; auto.
  - injection H as <-. cbn [c callers] in *. left. split; [|reflexivity]. symmetry in Q. apply andb_false_iff in Q as [Q|Q]; [apply Nat.eqb_neq in Q; lia|].
    apply some_sleep. intros h X. pose proof (i_bit _ _ V h X). congruence.
Qed.
Theorem C155_last_answer_wakes_one : forall r n s i g s', reachable r n s -> step s (A i g) = Some s' -> all_answered s' -> sleepers s' = sleepers s - 1.
Proof.
  intros r n s i g s' H X F. unfold sleepers. destruct (last_answer r s i g s' (inv_reachable _ _ _ H) X F) as [[Y ->]|[Y ->]].
  - rewrite (no_sleep _ Y). reflexivity.
  - pose proof (sleep_put _ _ Y). lia.
Qed.

(** One call at a time, by whatever goroutines: when all requests are answered nobody waits, and a call under way returns at its
    next step. *)
Lemma one_run : forall r ws s s', inv r s -> one_calls s -> (all_answered s -> forall g, ~ is_asleep s g) -> one_at_a_time s ws -> run s ws = Some s' ->
  all_answered s' -> forall g, ~ is_asleep s' g.
Proof.
  intros r. induction ws as [|w ws IH]; intros s s' V O N T E F; cbn in *; [injection E as <-; auto|]. destruct (step s w) as [s1|] eqn:X; [|discriminate]. destruct T as [T1 T].
  apply (IH s1 s' (inv_step _ _ _ _ V X) T1); auto. clear IH E F T s' ws. intros F g. destruct w as [i h|h].
  - destruct (last_answer r s i h s1 V X F) as [[Y Z]|[Y Z]]; unfold is_asleep; rewrite Z; intros K.
    + assert (Q : existsb asleep (callers s) = true) by (apply existsb_exists; exists CSleep; split; [eapply nth_error_In; exact K|reflexivity]). congruence.
    + destruct (Nat.eq_dec g h) as [->|NE]; [rewrite (put_same _ _ _ _ Y) in K; discriminate|]. rewrite put_other in K by congruence. apply NE. apply O; try congruence; apply nth_error_Some; congruence.
  - assert (F0 : all_answered s).
    { cbn in X. unfold results in X. destruct (nth_error (callers s) h) as [[]|]; try discriminate; injection X as <-; [|exact F]. cbn [c total answered] in F.
      match type of F with all_answered (if ?b then _ else _) => destruct b end; exact F. }
    intros K. apply (N F0 g). now apply (forever r s V F0 _ _ X).
Qed.
Theorem C155_calls_return_partial : forall r n ws s, one_at_a_time (start r n) ws -> run (start r n) ws = Some s -> all_answered s ->
  forall g p, nth_error (callers s) g = Some p -> p = COut \/ exists s', step s (G g) = Some s' /\ nth_error (callers s') g = Some COut /\ rets s' = rets s ++ [held s].
Proof.
  intros r n ws s T E F g p N. assert (NS : ~ is_asleep s g).
  { eapply (one_run r ws (start r n) s); auto; [apply inv_start| |].
    - intros a b A _ L _. destruct A. cbn in *. rewrite repeat_length in L. now apply nth_error_repeat.
    - intros _ h X. unfold is_asleep in X. cbn in X. apply nth_error_In, repeat_spec in X. discriminate. }
  destruct p; [now left|contradiction|]. right. cbn. unfold results. rewrite N. eexists. split; [reflexivity|]. cbn. split; [eapply put_same; eauto|reflexivity].
Qed.
(** Two calls at once: when all is answered, one of them got the answer and the other waits for ever. *)
Theorem C155_calls_return_refuted : exists ws s, run (start 1 2) ws = Some s /\ all_answered s /\ rets s = [[0]] /\ is_asleep s 1 /\ forall s', leads s s' -> is_asleep s' 1.
Proof.
  exists [G 0; G 1; A 0 0; G 0], (mkSt [] 1 true [true] [COut; CSleep] [[0]]). split; [reflexivity|]. assert (F : all_answered (mkSt [] 1 true [true] [COut; CSleep] [[0]])) by (repeat constructor).
  split; [exact F|]. split; [reflexivity|]. split; [reflexivity|]. intros s' L. eapply (C155_waits_for_ever 1 2); [|exact F|reflexivity|exact L]. exists [G 0; G 1; A 0 0; G 0]. reflexivity.
Qed.

(** ** Examples *)
(** two goroutines, one after the other, two requests: the first call waits and gets both answers *)
Example C155_run : exists ws s, one_at_a_time (start 2 2) ws /\ run (start 2 2) ws = Some s /\ all_answered s /\ rets s = [[1; 0]; []].
Proof.
  exists [A 1 0; G 1; A 0 1; G 1; G 0], (mkSt [] 2 true [true; true] [COut; COut] [[1; 0]; []]). split; [|split; [reflexivity|split; [repeat constructor|reflexivity]]].
  assert (D : forall l : list cpc, (l = [COut; COut] \/ exists p, l = [COut; p]) -> forall g h, nth_error l g <> Some COut -> nth_error l h <> Some COut -> g < length l -> h < length l -> g = h).
  { intros l [->|[p ->]] [|[|g]] [|[|h]] X Y L M; cbn in *; try lia; congruence. }
  cbn. repeat split; unfold one_calls; cbn [callers]; apply D; eauto.
Qed.
(** three goroutines wait at the last answer: two remain *)
Example C155_three : exists s s', reachable 1 3 s /\ step s (A 0 1) = Some s' /\ all_answered s' /\ sleepers s = 3 /\ sleepers s' = 2.
Proof.
  exists (mkSt [] 0 true [false] [CSleep; CSleep; CSleep] []), (mkSt [0] 1 true [true] [CSleep; CWoken; CSleep] []). split; [exists [G 0; G 1; G 2]; reflexivity|]. repeat split. repeat constructor.
Qed.

Print Assumptions C155_one_gets_all.
Print Assumptions C155_waits_for_ever.
Print Assumptions C155_last_answer_wakes_one.
Print Assumptions C155_calls_return_partial.
Print Assumptions C155_calls_return_refuted.
