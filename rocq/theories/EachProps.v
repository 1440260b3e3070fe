(** C152: Each of a MultiRequest, called again. *)
From Coq Require Import List Bool Arith Lia Permutation.
Import ListNotations.
From Verif Require Import EachModel EachSpec EachProofs.

(** every call of Each returns a channel of its own: the channels returned so far are those made so far *)
Definition made (s : st) : nat := match u s with UOut | UMake => length (chs s) | _ => length (chs s) - 1 end.
Lemma got_step : forall s w s', (match u s with UOut | UMake => True | _ => 0 < length (chs s) end) -> got s = seq 0 (made s) -> step s w = Some s' ->
  got s' = seq 0 (made s') \/ dead s' = true.
Proof.
  intros s w s' UU G E. unfold step in E. destruct (dead s); [discriminate|]. unfold made in *. destruct w as [i|].
  - unfold respond, send, shut in E. destruct (nth_error (rs s) i) as [[| | |k| | |k|]|]; try discriminate; try (injection E as <-; now left).
    + destruct (locked s); [discriminate|]. destruct (chs s) eqn:Z; injection E as <-; left; cbn in *; rewrite ?Z; exact G.
    + destruct (nth_error (chs s) k) as [ch|]; [|discriminate]. destruct (closed ch); [injection E as <-; now right|]. destruct (total s <=? length (buf ch)); [discriminate|].
      injection E as <-; left; cbn; rewrite put_length; exact G.
    + destruct (nth_error (chs s) k) as [ch|]; [|discriminate]. destruct (closed ch); injection E as <-; [now right|left; cbn; rewrite put_length; exact G].
  - unfold each, send, shut in E. destruct (u s) as [| |[|x l]| | |] eqn:X.
    + injection E as <-; left; exact G.
    + injection E as <-. left. cbn. rewrite app_length. cbn. replace (_ + 1 - 1) with (length (chs s)) by lia. exact G.
    + injection E as <-; left; exact G.
    + destruct (nth_error (chs s) (cur s)) as [ch|]; [|discriminate]. destruct (closed ch); [injection E as <-; now right|]. destruct (total s <=? length (buf ch)); [discriminate|].
      injection E as <-; left; cbn; rewrite put_length; exact G.
    + injection E as <-; left; cbn. destruct (c s =? total s); exact G.
    + destruct (nth_error (chs s) (cur s)) as [ch|]; [|discriminate]. destruct (closed ch); injection E as <-; [now right|left; cbn; rewrite put_length; exact G].
    + injection E as <-. left. cbn. unfold cur. rewrite G. destruct (length (chs s)) as [|n]; [lia|]. replace (S n - 1) with n by lia. symmetry. exact (seq_S n 0).
Qed.
Lemma got_run : forall r ws s s', inv r s -> (got s = seq 0 (made s) \/ dead s = true) -> run s ws = Some s' -> got s' = seq 0 (made s') \/ dead s' = true.
Proof.
  intros r. induction ws as [|w ws IH]; intros s s' V G E; cbn in E; [now injection E as <-|].
  destruct (step s w) as [s1|] eqn:X; [|discriminate]. apply (IH s1 s' (inv_step _ _ _ _ V X)); [|exact E]. destruct G as [G|G].
  - apply (got_step s w); auto. pose proof (i_u _ _ V) as UU. destruct (u s); cbn in UU; auto.
  - unfold step in X. rewrite G in X. discriminate.
Qed.
Theorem C152_each_call_its_channel : forall r s, reachable r s -> dead s = false -> u s = UOut -> got s = seq 0 (length (chs s)).
Proof.
  intros r s [ws E] D U. destruct (got_run r ws (start r) s (inv_start r) (or_introl eq_refl) E) as [G|G]; [|congruence]. unfold made in G. now rewrite U in G.
Qed.

(** For all schedules: no answer is sent twice, on whatever channels, and when all is over each was sent once. *)
Theorem C152_no_answer_lost_or_doubled : forall r s, reachable r s ->
  NoDup (sent s) /\ (forall i, In i (sent s) -> i < r) /\ (over s -> chs s <> [] -> Permutation (sent s) (seq 0 r)).
Proof.
  intros r s H. pose proof (inv_reachable _ _ H) as [L P C K UU HE F O].
  assert (ND : NoDup (pend 0 (rs s) ++ inhand s ++ held s ++ sent s)) by (eapply Permutation_NoDup; [symmetry; exact P|apply seq_NoDup]).
  assert (TL : forall (a b : list nat), NoDup (a ++ b) -> NoDup b) by (intros a; induction a as [|x a IH]; intros b X; [exact X|inversion X; auto]).
  split; [|split].
  - exact (TL _ _ (TL _ _ (TL _ _ ND))).
  - intros i X. assert (Y : In i (seq 0 r)) by (eapply Permutation_in; [exact P|]; rewrite !in_app_iff; auto). apply in_seq in Y. lia.
  - intros [X1 X2] NE. rewrite (HE NE) in P. unfold inhand in P. rewrite X1 in P. cbn [app] in P.
    assert (PE : forall l k, Forall (eq RDone) l -> pend k l = []) by (induction l as [|p l IH]; intros k X; [reflexivity|]; inversion X; subst; cbn; auto).
    rewrite (PE _ _ X2) in P. exact P.
Qed.
(** For all schedules: no send waits for a receiver. *)
Theorem C152_no_send_blocks : forall r s, reachable r s -> dead s = false -> ~ blocked s.
Proof.
  intros r s H D. pose proof (inv_reachable _ _ H) as [L P C K UU HE F O]. apply Permutation_length in P. rewrite seq_length, !app_length in P.
  assert (Z : forall k ch, nth_error (chs s) k = Some ch -> 0 < length (pend 0 (rs s)) + length (inhand s) -> (total s <=? length (buf ch)) = false).
  { intros k ch X Y. apply Nat.leb_gt. unfold total. pose proof (in_concat_len _ _ _ X). unfold sent in P. lia. }
  intros [(i & k & N & E)|(x & l & N & E)]; unfold step in E; rewrite D in E.
  - unfold respond in E. rewrite N in E. unfold send in E. specialize (K _ _ N). cbn in K. destruct (nth_error (chs s) k) as [ch|] eqn:X.
    + destruct (closed ch); [discriminate|]. rewrite (Z k ch X) in E; [discriminate|]. rewrite (Permutation_length (pend_put_out _ 0 _ _ RAdd N eq_refl eq_refl)). cbn. lia.
    + apply nth_error_None in X. lia.
  - unfold each in E. rewrite N in E. unfold send in E. rewrite N in UU. cbn in UU. destruct (nth_error (chs s) (cur s)) as [ch|] eqn:X.
    + destruct (closed ch); [discriminate|]. rewrite (Z _ ch X) in E; [discriminate|]. unfold inhand. rewrite N. cbn. lia.
    + apply nth_error_None in X. unfold cur in X. lia.
Qed.
(** checking a schedule by computation, for the examples *)
Definition restb (p : rpc) : bool := match p with RIdle | RDone => true | _ => false end.
Definition apartb (s : st) : bool := match u s with UOut => true | _ => forallb restb (rs s) end.
Fixpoint tameb (s : st) (ws : list who) : bool :=
  match ws with [] => true | w :: ws => match step s w with None => false | Some s' => apartb s' && tameb s' ws end end.
Lemma tameb_ok : forall ws s, tameb s ws = true -> tame s ws.
Proof.
  induction ws as [|w ws IH]; intros s H; cbn in *; [exact Logic.I|]. destruct (step s w) as [s'|]; [|discriminate]. apply andb_prop in H as [H1 H2]. split; [|auto].
  unfold apartb in H1. unfold apart. assert (X : u s' = UOut \/ forallb restb (rs s') = true) by (destruct (u s'); auto). destruct X as [X|X]; [now left|right].
  rewrite forallb_forall in X. apply Forall_forall. intros p Y. specialize (X p Y). unfold resting. destruct p; auto; discriminate.
Qed.
Ltac ends ws := match goal with |- context[run ?a _] => let r := eval vm_compute in (run a ws) in match r with Some ?s => exists ws, s end end.
(** Calls of Each that do not overlap an answer: nothing panics; an earlier channel changes no more once there is a later one; and
    when all is over the last channel is closed. *)
Theorem C152_calls_apart_partial : forall r ws s, tame (start r) ws -> run (start r) ws = Some s ->
  dead s = false /\
  (over s -> chs s <> [] -> is_closed s (length (chs s) - 1)) /\
  (forall ws' s' k, tame s ws' -> run s ws' = Some s' -> S k < length (chs s) -> sent_on s' k = sent_on s k /\ (is_closed s' k <-> is_closed s k)).
Proof.
  intros r ws s T E. destruct (calm_run r ws _ _ (inv_start r) (calm_start r) T E) as (V & M & _). split; [exact (k_live _ M)|]. split.
  - intros [X1 X2] NE. pose proof (k_done _ M) as D. rewrite X1 in D. apply D; [exact NE| |].
    + rewrite (i_cnt _ _ V). assert (CE : forall l, Forall (eq RDone) l -> cntd l = length l) by (induction l as [|p l IH]; intros X; [reflexivity|]; inversion X; subst; cbn; auto).
      apply CE, X2.
    + intros i p X. rewrite Forall_forall in X2. rewrite <- (X2 _ (nth_error_In _ _ X)). reflexivity.
  - intros ws' s' k T' E' KK. destruct (calm_run r ws' _ _ V M T' E') as (_ & _ & Q & _). unfold sent_on, is_closed. rewrite Q by (unfold cur; lia). split; reflexivity.
Qed.
(** A second call while an answer is missing: the channel of the first call is never closed, so that a loop over it does not end -
    whatever the schedule. And when the second call meets the last answer, both close the channel and the program panics. *)
Theorem C152_every_channel_ends_refuted :
  (forall r s k, reachable r s -> S k < length (chs s) -> ~ is_closed s k -> c s < r -> forall s', leads s s' -> ~ is_closed s' k) /\
  (exists ws s, run (start 1) ws = Some s /\ tame (start 1) ws /\ over s /\ got s = [0; 1] /\ sent_on s 0 = [] /\ ~ is_closed s 0 /\ sent_on s 1 = [0] /\ is_closed s 1) /\
  (exists ws s, run (start 1) ws = Some s /\ dead s = true /\ got s = [0; 1]).
Proof.
  split; [|split].
  - intros r s k H K NC C s' [ws E]. pose proof (inv_reachable _ _ H) as V.
    assert (G : given_up k s) by (split; [exact K|]; split; [exact NC|]; intros i N; pose proof (i_full _ _ V _ _ N eq_refl); lia).
    exact (proj1 (proj2 (given_up_run k ws s s' G E))).
  - ends ([U; U; U; U; U; U; U; U; U; U; R 0; R 0; R 0; R 0; R 0; R 0]). split; [vm_compute; reflexivity|].
    split; [apply tameb_ok; vm_compute; reflexivity|].
    split; [split; [reflexivity|repeat constructor]|]. repeat split; try reflexivity.
    + intros (ch & X & Y). cbn in X. injection X as <-. discriminate.
    + eexists. split; reflexivity.
  - ends ([U; U; U; U; U; R 0; R 0; R 0; R 0; U; U; U; U; U; U; R 0; R 0]). repeat split; vm_compute; reflexivity.
Qed.

(** ** Examples *)
(** two requests: one answered before the first call, one after the second *)
Example C152_run : exists ws s, tame (start 2) ws /\ run (start 2) ws = Some s /\ over s /\ chs s = [mkChan [1] false; mkChan [0] true] /\ dead s = false.
Proof.
  ends ([R 1; R 1; U; U; U; U; U; U; U; U; U; U; U; R 0; R 0; R 0; R 0; R 0; R 0]).
  split; [apply tameb_ok; vm_compute; reflexivity|]. split; [vm_compute; reflexivity|]. split; [split; [reflexivity|repeat constructor]|]. split; reflexivity.
Qed.
(** the hypotheses of the first part of the refutation *)
Example C152_missing : exists s, reachable 2 s /\ 1 < length (chs s) /\ ~ is_closed s 0 /\ c s < 2.
Proof.
  eexists. split; [exists [R 1; R 1; U; U; U; U; U; U; U; U; U]; reflexivity|]. cbn. split; [lia|]. split; [|lia].
  intros (ch & X & Y). cbn in X. injection X as <-. discriminate.
Qed.

Print Assumptions C152_each_call_its_channel.
Print Assumptions C152_no_answer_lost_or_doubled.
Print Assumptions C152_no_send_blocks.
Print Assumptions C152_calls_apart_partial.
Print Assumptions C152_every_channel_ends_refuted.
