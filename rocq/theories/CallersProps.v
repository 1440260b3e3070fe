(** C154: Each of a MultiRequest, called by several goroutines at once. *)
From Coq Require Import List Bool Arith Lia Permutation.
Import ListNotations.
From Verif Require Import EachModel EachSpec EachProofs EachProps CallersModel CallersSpec.

(** ** what happens under the mutex is what EachModel.v does *)
Lemma step2_base : forall s w s', step2 s w = Some s' -> base s' = base s \/ exists w1, step (base s) w1 = Some (base s').
Proof.
  intros s [i|j] s' E; cbn in E.
  - destruct (step (base s) (R i)) as [b|] eqn:X; [|discriminate]. injection E as <-. right. eauto.
  - unfold call in E. destruct (nth_error (callers s) j) as [[| |k]|]; try discriminate.
    + destruct (locked (base s)); [discriminate|]. destruct (step (base s) U) as [b|] eqn:X; [|discriminate]. injection E as <-. right. eauto.
    + destruct (step (base s) U) as [b|] eqn:X; [|discriminate]. injection E as <-. right. eauto.
    + destruct (dead (base s)); [discriminate|]. injection E as <-. now left.
Qed.
Lemma run_snoc : forall ws s s1 w s2, run s ws = Some s1 -> step s1 w = Some s2 -> run s (ws ++ [w]) = Some s2.
Proof.
  induction ws as [|v ws IH]; intros s s1 w s2 E X; cbn in *; [injection E as ->; now rewrite X|]. destruct (step s v); [eauto|discriminate].
Qed.
Lemma step2_reachable : forall r s w s', reachable r (base s) -> step2 s w = Some s' -> reachable r (base s').
Proof.
  intros r s w s' [ws E] X. destruct (step2_base _ _ _ X) as [->|[w1 Y]]; [now exists ws|]. exists (ws ++ [w1]). eapply run_snoc; eauto.
Qed.
Lemma run2_reachable : forall r ws s s', reachable r (base s) -> run2 s ws = Some s' -> reachable r (base s').
Proof.
  intros r. induction ws as [|w ws IH]; intros s s' H E; cbn in E; [now injection E as <-|]. destruct (step2 s w) as [s1|] eqn:X; [|discriminate].
  eapply IH; [eapply step2_reachable; eauto|exact E].
Qed.
Lemma base_reachable : forall r n s, reachable2 r n s -> reachable r (base s).
Proof. intros r n s [ws E]. eapply run2_reachable; [|exact E]. exists []. reflexivity. Qed.

(** For all schedules and any number of callers: no answer is sent twice, and when all is over each was sent once. *)
Theorem C154_no_answer_lost_or_doubled : forall r n s, reachable2 r n s ->
  NoDup (sent (base s)) /\ (forall i, In i (sent (base s)) -> i < r) /\ (over (base s) -> chs (base s) <> [] -> Permutation (sent (base s)) (seq 0 r)).
Proof. intros r n s H. apply C152_no_answer_lost_or_doubled. eapply base_reachable; eauto. Qed.
(** For all schedules and any number of callers: no send waits for a receiver. *)
Theorem C154_no_send_blocks : forall r n s, reachable2 r n s -> dead (base s) = false -> ~ blocked2 s.
Proof.
  intros r n s H D B. apply (C152_no_send_blocks r (base s) (base_reachable _ _ _ H) D). destruct B as [(i & k & N & E)|(j & x & l & N & X & E)].
  - left. exists i, k. split; [exact N|]. cbn in E. destruct (step (base s) (R i)); [discriminate|reflexivity].
  - right. exists x, l. split; [exact X|]. cbn in E. unfold call in E. rewrite N in E. destruct (step (base s) U); [discriminate|reflexivity].
Qed.

(** ** which channel a call returns *)
Fixpoint pends (l : list cpc) : list nat := match l with [] => [] | CRet k :: l => k :: pends l | _ :: l => pends l end.
Definition pof (p : cpc) : list nat := match p with CRet k => [k] | _ => [] end.
Lemma pends_cons : forall p l, pends (p :: l) = pof p ++ pends l.
Proof. intros [] l; reflexivity. Qed.
Lemma pends_put : forall l j p q, nth_error l j = Some p -> Permutation (pof p ++ pends (put l j q)) (pof q ++ pends l).
Proof.
  induction l as [|x l IH]; intros [|j] p q H; try discriminate; cbn [nth_error put] in *.
  - injection H as ->. rewrite !pends_cons. rewrite !app_assoc. apply Permutation_app_tail, Permutation_app_comm.
  - rewrite !pends_cons. specialize (IH j p q H). rewrite !app_assoc. rewrite (Permutation_app_comm (pof p)), (Permutation_app_comm (pof q)), <- !app_assoc. now apply Permutation_app_head.
Qed.
Lemma pends_in : forall l k, In k (pends l) <-> exists j, nth_error l j = Some (CRet k).
Proof.
  intros l k. split.
  - induction l as [|p l IH]; [intros []|]. rewrite pends_cons, in_app_iff. intros [H|H].
    + exists 0. destruct p; cbn in H; try contradiction. destruct H as [->|[]]. reflexivity.
    + destruct (IH H) as [j E]. now exists (S j).
  - intros [j E]. revert j E. induction l as [|p l IH]; intros [|j] E; try discriminate; rewrite pends_cons, in_app_iff; cbn in E; [injection E as ->; left; now left|right; eauto].
Qed.
Lemma pends_out : forall l, Forall (eq COut) l -> pends l = [].
Proof. induction 1 as [|p l <- _ IH]; auto. Qed.

(** steps of EachModel.v and the returned channels, the number of channels, the mutex *)
Lemma respond_keeps : forall s i s', step s (R i) = Some s' -> got s' = got s /\ length (chs s') = length (chs s) /\ u s' = u s.
Proof.
  intros s i s' E. unfold step in E. destruct (dead s); [discriminate|]. unfold respond, send, shut in E.
  destruct (nth_error (rs s) i) as [[| | |k| | |k|]|]; try discriminate; try (injection E as <-; auto).
  - destruct (locked s); [discriminate|]. destruct (chs s) eqn:Z; injection E as <-; cbn; rewrite ?Z; auto.
  - destruct (nth_error (chs s) k) as [ch|]; [|discriminate]. destruct (closed ch); [injection E as <-; auto|]. destruct (total s <=? length (buf ch)); [discriminate|].
    injection E as <-; cbn; rewrite put_length; auto.
  - destruct (nth_error (chs s) k) as [ch|]; [|discriminate]. destruct (closed ch); injection E as <-; cbn; rewrite ?put_length; auto.
Qed.
Lemma each_keeps : forall s s', step s U = Some s' ->
  length (chs s) <= length (chs s') /\ (length (chs s') = length (chs s) \/ u s = UMake) /\
  (locked s' = true /\ got s' = got s \/ locked s' = false /\ u s = UFree /\ u s' = UOut /\ got s' = got s ++ [cur s] /\ chs s' = chs s).
Proof.
  intros s s' E. unfold step in E. destruct (dead s); [discriminate|]. unfold each, send, shut, locked in *. destruct (u s) as [| |[|x l]| | |] eqn:X.
  - injection E as <-; cbn; auto.
  - injection E as <-; cbn; rewrite app_length; cbn; split; [lia|auto].
  - injection E as <-; cbn; auto.
  - destruct (nth_error (chs s) (cur s)) as [ch|]; [|discriminate]. destruct (closed ch); [injection E as <-; cbn; rewrite X; auto|]. destruct (total s <=? length (buf ch)); [discriminate|].
    injection E as <-; cbn; rewrite put_length; auto.
  - injection E as <-; cbn. destruct (c s =? total s); auto.
  - destruct (nth_error (chs s) (cur s)) as [ch|]; [|discriminate]. destruct (closed ch); injection E as <-; cbn; rewrite ?put_length, ?X; auto.
  - injection E as <-; cbn; auto 8.
Qed.

Record keep (s : sys) : Prop := {
  k_all : Permutation (map its_own (rets s) ++ pends (callers s)) (got (base s));
  k_lt : forall k, In k (pends (callers s)) -> k <= cur (base s);
  k_le : forall x, In x (rets s) -> its_own x <= given x /\ given x <= cur (base s)
}.
Lemma cur_le : forall a b, length (chs a) <= length (chs b) -> cur a <= cur b.
Proof. intros. unfold cur. lia. Qed.
Lemma keep_step : forall s w s', keep s -> step2 s w = Some s' -> keep s'.
Proof.
  intros s [i|j] s' [A B L] E; cbn in E.
  - destruct (step (base s) (R i)) as [b|] eqn:X; [|discriminate]. injection E as <-. destruct (respond_keeps _ _ _ X) as (G & N & _).
    assert (CE : cur b = cur (base s)) by (unfold cur; now rewrite N). constructor; cbn; rewrite ?G, ?CE; assumption.
  - unfold call in E. destruct (nth_error (callers s) j) as [[| |k]|] eqn:P; try discriminate.
    + destruct (locked (base s)) eqn:Q; [discriminate|]. destruct (step (base s) U) as [b|] eqn:X; [|discriminate]. injection E as <-.
      destruct (each_keeps _ _ X) as (LE & _ & [[_ G]|(_ & F & _)]); [|unfold locked in Q; rewrite F in Q; discriminate].
      pose proof (pends_put _ _ _ CIn P) as PP. cbn in PP. apply cur_le in LE. constructor; cbn [base callers rets].
      * rewrite G, PP. exact A.
      * intros k K. rewrite PP in K. specialize (B k K). lia.
      * intros x K. specialize (L x K). lia.
    + destruct (step (base s) U) as [b|] eqn:X; [|discriminate]. injection E as <-. destruct (each_keeps _ _ X) as (LE & _ & [[Q G]|(Q & F & _ & G & CC)]); rewrite Q.
      * apply cur_le in LE. constructor; cbn [base callers rets]; [now rewrite G|intros k K; specialize (B k K); lia|intros x K; specialize (L x K); lia].
      * pose proof (pends_put _ _ _ (CRet (cur (base s))) P) as PP. cbn [pof app] in PP. assert (CE : cur b = cur (base s)) by (unfold cur; now rewrite CC).
        constructor; cbn [base callers rets]; rewrite ?CE.
        -- rewrite G, PP. rewrite <- Permutation_middle, A. apply Permutation_cons_append.
        -- intros k K. rewrite PP in K. destruct K as [<-|K]; [lia|auto].
        -- exact L.
    + destruct (dead (base s)); [discriminate|]. injection E as <-. pose proof (pends_put _ _ _ COut P) as PP. cbn [pof app] in PP. constructor; cbn [base callers rets].
      * rewrite map_app. cbn [map its_own]. rewrite <- app_assoc. cbn [app]. rewrite PP. exact A.
      * intros x K. apply B. rewrite <- PP. now right.
      * intros x K. apply in_app_iff in K as [K|[<-|[]]]; [now apply L|]. cbn. split; [|lia]. apply B, pends_in. now exists j.
Qed.
Lemma keep_begin : forall r n, keep (begin r n).
Proof.
  intros. assert (P : pends (repeat COut n) = []) by (induction n; auto). constructor; cbn; rewrite ?P; auto; intros ? [].
Qed.
Lemma keep_run : forall ws s s', keep s -> run2 s ws = Some s' -> keep s'.
Proof.
  induction ws as [|w ws IH]; intros s s' K E; cbn in E; [now injection E as <-|]. destruct (step2 s w) as [s1|] eqn:X; [|discriminate]. eapply IH; [eapply keep_step; eauto|exact E].
Qed.
(** For all schedules: a call returns the channel it made or a later one; no two calls made the same, and the calls that returned
    made all channels if none is under way. *)
Theorem C154_its_own_or_a_later_one : forall r n s, reachable2 r n s -> dead (base s) = false ->
  (forall x, In x (rets s) -> its_own x <= given x <= length (chs (base s)) - 1) /\
  (none_calls s -> Permutation (map its_own (rets s)) (seq 0 (length (chs (base s))))).
Proof.
  intros r n s [ws E] D. pose proof (keep_run _ _ _ (keep_begin r n) E) as [A _ L]. split; [exact L|]. intros [O U].
  rewrite (pends_out _ O), app_nil_r in A. rewrite (C152_each_call_its_channel r (base s)) in A; [exact A| |exact D|exact U]. eapply base_reachable. exists ws. exact E.
Qed.

(** While no call of Each has the mutex before the one ahead has returned, each call returns the channel it made. *)
Lemma turn_step : forall s w s', in_turn s -> step2 s w = Some s' ->
  (forall k, In k (pends (callers s)) -> k = cur (base s)) /\ (forall x, In x (rets s) -> given x = its_own x) ->
  (forall k, In k (pends (callers s')) -> k = cur (base s')) /\ (forall x, In x (rets s') -> given x = its_own x).
Proof.
  intros s [i|j] s' T E [B L]; cbn in E.
  - destruct (step (base s) (R i)) as [b|] eqn:X; [|discriminate]. injection E as <-. destruct (respond_keeps _ _ _ X) as (G & N & _).
    assert (CE : cur b = cur (base s)) by (unfold cur; now rewrite N). cbn. rewrite CE. auto.
  - assert (M : forall b, step (base s) U = Some b -> forall k, In k (pends (callers s)) -> k = cur b).
    { intros b X k K. rewrite (B k K). destruct (each_keeps _ _ X) as (_ & [N|N] & _); [unfold cur; now rewrite N|]. apply pends_in in K as [g K]. rewrite (T g k K) in N. discriminate. }
    unfold call in E. destruct (nth_error (callers s) j) as [[| |k]|] eqn:P; try discriminate.
    + destruct (locked (base s)); [discriminate|]. destruct (step (base s) U) as [b|] eqn:X; [|discriminate]. injection E as <-. cbn [base callers rets]. split; [|exact L].
      pose proof (pends_put _ _ _ CIn P) as PP. cbn in PP. intros k K. rewrite PP in K. exact (M b eq_refl k K).
    + destruct (step (base s) U) as [b|] eqn:X; [|discriminate]. injection E as <-. cbn [base callers rets]. split; [|exact L].
      destruct (each_keeps _ _ X) as (_ & _ & [[Q G]|(Q & F & _ & G & CC)]); rewrite Q; [exact (M b eq_refl)|].
      pose proof (pends_put _ _ _ (CRet (cur (base s))) P) as PP. cbn [pof app] in PP. intros k K. rewrite PP in K. destruct K as [<-|K]; [unfold cur; now rewrite CC|exact (M b eq_refl k K)].
    + destruct (dead (base s)); [discriminate|]. injection E as <-. cbn [base callers rets]. pose proof (pends_put _ _ _ COut P) as PP. cbn [pof app] in PP. split.
      * intros x K. apply B. rewrite <- PP. now right.
      * intros x K. apply in_app_iff in K as [K|[<-|[]]]; [now apply L|]. cbn. symmetry. apply B, pends_in. now exists j.
Qed.
Lemma turn_run : forall ws s s', in_turn s -> all_in_turn s ws -> run2 s ws = Some s' ->
  (forall k, In k (pends (callers s)) -> k = cur (base s)) /\ (forall x, In x (rets s) -> given x = its_own x) -> (forall x, In x (rets s') -> given x = its_own x).
Proof.
  induction ws as [|w ws IH]; intros s s' T AT E H; cbn in *; [injection E as <-; apply H|]. destruct (step2 s w) as [s1|] eqn:X; [|discriminate]. destruct AT as [T1 AT].
  apply (IH s1 s' T1 AT E). exact (turn_step s w s1 T X H).
Qed.
Theorem C154_its_own_channel_partial : forall r n ws s, all_in_turn (begin r n) ws -> run2 (begin r n) ws = Some s -> dead (base s) = false ->
  (forall x, In x (rets s) -> given x = its_own x) /\ (none_calls s -> Permutation (map given (rets s)) (seq 0 (length (chs (base s))))).
Proof.
  intros r n ws s AT E D. assert (P : pends (repeat COut n) = []) by (clear; induction n; auto). assert (G : forall x, In x (rets s) -> given x = its_own x).
  { eapply (turn_run ws (begin r n)); [|exact AT|exact E|].
    - intros j k K. reflexivity.
    - cbn. rewrite P. split; intros ? []. }
  split; [exact G|]. intros N. replace (map given (rets s)) with (map its_own (rets s)) by (apply map_ext_in; intros x X; symmetry; now apply G).
  apply (C154_its_own_or_a_later_one r n s (ex_intro _ ws E) D). exact N.
Qed.

(** ** two calls at once *)
Ltac ends2 ws := match goal with |- context[run2 ?a _] => let r := eval vm_compute in (run2 a ws) in match r with Some ?s => exists ws, s end end.
(** One request, answered before; two goroutines call Each. Both are given the second channel, which is empty and closed; the answer is
    on the first, which nobody was given. *)
Theorem C154_its_own_channel_refuted : exists ws s, run2 (begin 1 2) ws = Some s /\ dead (base s) = false /\ over (base s) /\ none_calls s /\
  map given (rets s) = [1; 1] /\ sent_on (base s) 1 = [] /\ is_closed (base s) 1 /\ sent_on (base s) 0 = [0].
Proof.
  ends2 ([WR 0; WR 0] ++ repeat (WC 0) 7 ++ repeat (WC 1) 7 ++ [WC 0]). split; [vm_compute; reflexivity|]. split; [reflexivity|].
  split; [split; [reflexivity|repeat constructor]|]. split; [split; [repeat constructor|reflexivity]|]. repeat split; try reflexivity. eexists. split; reflexivity.
Qed.

(** ** Examples *)
Definition retb (p : cpc) : bool := match p with CRet _ => true | _ => false end.
Definition turnb (s : sys) : bool := negb (locked (base s)) || forallb (fun p => negb (retb p)) (callers s).
Fixpoint turnsb (s : sys) (ws : list who2) : bool :=
  match ws with [] => true | w :: ws => match step2 s w with None => false | Some s' => turnb s' && turnsb s' ws end end.
Lemma turnsb_ok : forall ws s, turnsb s ws = true -> all_in_turn s ws.
Proof.
  induction ws as [|w ws IH]; intros s H; cbn in *; [exact Logic.I|]. destruct (step2 s w) as [s'|]; [|discriminate]. apply andb_prop in H as [H1 H2]. split; [|auto].
  intros j k K. apply orb_prop in H1 as [H1|H1].
  - unfold locked in H1. destruct (u (base s')); try discriminate; reflexivity.
  - rewrite forallb_forall in H1. specialize (H1 _ (nth_error_In _ _ K)). discriminate.
Qed.
(** three goroutines and two requests: each call is given its own channel *)
Example C154_run : exists ws s, run2 (begin 2 3) ws = Some s /\ all_in_turn (begin 2 3) ws /\ dead (base s) = false /\ over (base s) /\ none_calls s /\
  map given (rets s) = [0; 1; 2] /\ map buf (chs (base s)) = [[1]; [0]; []].
Proof.
  ends2 ([WR 1; WR 1] ++ repeat (WC 2) 7 ++ repeat (WC 0) 6 ++ repeat (WR 0) 6 ++ repeat (WC 1) 7). split; [vm_compute; reflexivity|].
  split; [apply turnsb_ok; vm_compute; reflexivity|]. split; [reflexivity|]. split; [split; [reflexivity|repeat constructor]|]. split; [split; [repeat constructor|reflexivity]|]. split; reflexivity.
Qed.

Print Assumptions C154_no_answer_lost_or_doubled.
Print Assumptions C154_no_send_blocks.
Print Assumptions C154_its_own_or_a_later_one.
Print Assumptions C154_its_own_channel_partial.
Print Assumptions C154_its_own_channel_refuted.
