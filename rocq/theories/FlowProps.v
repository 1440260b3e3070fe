(** C144: calls on contexts and requests do not lock each other out. *)
From Coq Require Import ZArith List Bool Arith Lia.
Import ListNotations.
From Verif Require Import RequestModel.
From Verif Require Import TreeModel TreeSpec TreeProofs TreeBirth TreeCancel TreeHistory TreeProps CauseSpec CauseProps TreeTidy ReturnSpec TreeReturn TreeOrder FlowSpec TreeLive.
Open Scope Z_scope.

(** Whatever calls of NewRequest, Child, Done, Cancel, Expire, and of the functions that answer requests, are under way at
    the same time, wherever each of them has got to: if Done has been called for every child, then without any
    further call they can all come to their end. So there is no deadlock. *)
Theorem C144_no_deadlock_partial es tr s :
  run init es = (tr, s) -> children_done tr -> exists l, only_go l /\ at_rest (snd (run s l)).
Proof. intros R CD. destruct (all_end tr s) as (t & s' & (l & F & Q) & AR); [now exists es|exact CD|]. exists l. split; [exact F|]. now rewrite Q. Qed.
Print Assumptions C144_no_deadlock_partial.

Lemma dones_run ds : forall n tr s, reachable tr s -> (forall g, (n <= g)%nat -> jb s g = None) -> (forall d, In d ds -> cborn (cx s d) = true) ->
  exists l s', go_or_done l /\ run s l = (map ODone ds, s') /\ reachable (tr ++ map ODone ds) s'.
Proof.
  induction ds as [|d ds IH]; intros n tr s R J C.
  - exists [], s. split; [constructor|]. cbn. now rewrite app_nil_r.
  - assert (ST : step s (EDone n d) = ([ODone d], set_stk (set_jb s n (Some (JDone d))) n [FD0 d])) by (cbn [step]; rewrite C by (now left); unfold call; now rewrite (J n)).
    destruct R as (es & R). assert (R1 : reachable (tr ++ [ODone d]) (set_stk (set_jb s n (Some (JDone d))) n [FD0 d])) by (exists (es ++ [EDone n d]); now rewrite run_snoc, R, ST).
    destruct (IH (S n) _ _ R1) as (l & s' & G & RUN & R2).
    + intros g L. cbn. rewrite fupd_other by lia. apply J. lia.
    + intros x I. cbn. apply C. now right.
    + exists (EDone n d :: l), s'. split; [constructor; [right; eauto|exact G]|]. cbn [run map]. rewrite ST, RUN. split; [reflexivity|]. now rewrite <- app_assoc in R2.
Qed.
Definition kids_of (tr : list obs) : list nat := flat_map (fun b => match b with OChild _ _ d => [d] | _ => [] end) tr.
Lemma kids_of_in tr d : In d (kids_of tr) <-> exists k p, In (OChild k p d) tr.
Proof.
  unfold kids_of. rewrite in_flat_map. split.
  - intros (b & I & Q). destruct b; try destruct Q as [|[]]; try contradiction. subst. eauto.
  - intros (k & p & I). exists (OChild k p d). split; [exact I|now left].
Qed.
Lemma bound ks : exists n, forall g, (n <= g)%nat -> ~ In g ks.
Proof. induction ks as [|k ks (n & IH)]; [exists 0%nat; easy|]. exists (Nat.max n (S k)). intros g L [->|I]; [lia|]. apply (IH g); [lia|exact I]. Qed.

(** And if Done has not been called for some children yet (so that a Cancel may go round and round, C124), it is enough
    that it be called for them now: after that too everything can come to its end. *)
Theorem C144_done_releases_partial es tr s :
  run init es = (tr, s) -> children_made tr -> exists l, go_or_done l /\ at_rest (snd (run s l)).
Proof.
  intros R CM. destruct (finitely_many _ _ _ R) as (ks & NJ). destruct (bound ks) as (n & NB).
  pose proof (run_tidy _ _ _ R) as AL. destruct (dones_run (kids_of tr) n tr s) as (l & s' & G & RUN & R'); [now exists es|intros g L; apply NJ; auto| |].
  - intros d I. apply kids_of_in in I. destruct I as (k & p & I). apply CM in I. destruct I as [I _]. now apply (h_born _ _ (y_kids _ _ AL)) in I.
  - assert (CD : children_done (tr ++ map ODone (kids_of tr))).
    { intros k p d I. assert (I0 : In (OChild k p d) tr) by (apply in_app_iff in I; destruct I as [I|I]; [exact I|]; apply in_map_iff in I; destruct I as (x & Q & _); discriminate).
      destruct (CM _ _ _ I0) as [RT F]. split; [apply in_app_iff; right; apply in_map, kids_of_in; eauto|]. intros a b Q. apply app_eq_app in Q. destruct Q as (w & [[-> Q]|[-> Q]]); [|apply in_app_iff; now left].
      destruct w as [|x w]; cbn in Q; [rewrite app_nil_r in *; exact RT|]. injection Q as <- _. now apply (F a w). }
    destruct (all_end _ _ R' CD) as (t & s2 & (l2 & F & Q) & AR). exists (l ++ l2). split.
    + apply Forall_app. split; [exact G|]. eapply Forall_impl; [|exact F]. intros e H. now left.
    + now rewrite run_app, RUN, Q.
Qed.
Print Assumptions C144_done_releases_partial.

(** Without the condition it is false: a Cancel with a grandchild that is not Done goes round for ever (C124). *)
Theorem C144_without_done_refuted : exists es tr s, run init es = (tr, s) /\ children_made tr /\ forall l, only_go l -> ~ at_rest (snd (run s l)).
Proof.
  exists stuck, (fst (run init stuck)), (snd (run init stuck)). split; [apply surjective_pairing|]. split.
  - assert (T : fst (run init stuck) = [OChild 0 0 1; OChildRet 0 0 1; OChild 0 1 2; OChildRet 0 1 2; ONew 0 0 5; ONewRet 0 0 5; OCancel 9 0 CxCanceled; OSet 9 0]) by (vm_compute; reflexivity). rewrite T. intros k p d I. split.
    + cbn in I |- *. intuition; try discriminate; match goal with H : OChild _ _ _ = _ |- _ => injection H as <- <- <- end; auto.
    + intros a b Q. exfalso. assert (X : In (ODone d) [OChild 0 0 1; OChildRet 0 0 1; OChild 0 1 2; OChildRet 0 1 2; ONew 0 0 5; ONewRet 0 0 5; OCancel 9 0 CxCanceled; OSet 9 0]) by (rewrite Q; apply in_app_iff; right; now left). cbn in X. intuition discriminate.
  - assert (B : spins (snd (run init stuck))).
    { split; [intro k; do 10 (destruct k as [|k]; [vm_compute; reflexivity|]); vm_compute; reflexivity|]. split; [intros k K; do 9 (destruct k as [|k]; [vm_compute; reflexivity|]); destruct k as [|k]; [congruence|vm_compute; reflexivity]|].
      split; [vm_compute; trivial|]. repeat (split; [vm_compute; reflexivity|]). exists [FCas CxCanceled 1]. split; [vm_compute; reflexivity|]. left. split; [reflexivity|vm_compute; reflexivity]. }
    assert (P : forall l s, Forall goes l -> spins s -> spins (snd (run s l))).
    { induction l as [|e l IH]; intros s F S0; [exact S0|]. inversion F; subst. cbn [run]. destruct (spins_step _ _ S0 H1) as [_ S1]. destruct (step s e) as [o s1]. cbn [snd] in S1. specialize (IH s1 H2 S1). now destruct (run s1 l). }
    intros l F AR. destruct (P l _ F B) as (J & _). specialize (AR 9%nat). rewrite J in AR. discriminate.
Qed.
Print Assumptions C144_without_done_refuted.

(** The hypotheses can be met, with calls that do wait for each other: request 5 of context 0 has a handler with context
    1, through which request 6 is made. Goroutine 3, cancelling context 0, has the lock of request 5 and is on its way to
    context 1; goroutine 4, cancelling context 1, has the lock of request 6; goroutines 6 and 7 want to answer these
    requests and wait. *)
Definition crossed : list ev :=
  [ERoot 0; ENew 1 0 5] ++ gos 4 1 ++ [EPend 5; EHandle 5 1; ENew 2 1 6] ++ gos 4 2 ++ [EChild 2 1 2] ++ gos 4 2 ++ [EDone 2 2] ++ gos 3 2 ++
  [ECancel 4 1 CxCanceled] ++ gos 6 4 ++ [ECancel 3 0 CxCanceled] ++ gos 9 3 ++ [ERespond 6 6 (Fail RcIOError)] ++ [ERespond 7 5 (Bytes 0)].
Lemma gos_go n k : only_go (gos n k).
Proof. induction n; constructor; eauto. Qed.
Lemma waits_lk s k r a rest g : jb s k <> None -> stk s k = FLk r a :: rest -> lock (rq s r) = Some g -> waits s k.
Proof. intros J E L. split; [exact J|]. cbn [step]. rewrite E. cbn [go]. now rewrite L. Qed.
Theorem C144_example : exists tr s, run init crossed = (tr, s) /\ children_done tr /\ In (OChildRet 2 1 2) tr /\
  lock (rq s 5) = Some 3%nat /\ lock (rq s 6) = Some 4%nat /\
  stk s 7 = [FLk 5 (Bytes 0)] /\ stk s 6 = [FLk 6 (Fail RcIOError)] /\
  jb s 3 = Some (JCancel 0) /\ jb s 4 = Some (JCancel 1) /\ waits s 6 /\ waits s 7 /\
  exists l t s', only_go l /\ run s l = (t, s') /\ at_rest s' /\ delivered t 5 = [RcCanceled] /\ delivered t 6 = [RcCanceled].
Proof.
  eexists (fst (run init crossed)), (snd (run init crossed)). split; [apply surjective_pairing|]. split.
  { remember (fst (run init crossed)) as T eqn:E. vm_compute in E. subst T. intros k p d I. cbn in I. repeat match type of I with _ \/ _ => destruct I as [I|I] end; try discriminate; try contradiction. injection I as <- <- <-. split; [cbn; tauto|]. intros a b Q.
    repeat (destruct a as [|? a]; cbn [app] in Q; [discriminate|injection Q as <- Q]; try (cbn; tauto)). }
  split; [vm_compute; tauto|]. do 6 (split; [vm_compute; reflexivity|]). split; [eapply waits_lk; [vm_compute; discriminate|vm_compute; reflexivity|vm_compute; reflexivity]|]. split; [eapply waits_lk; [vm_compute; discriminate|vm_compute; reflexivity|vm_compute; reflexivity]|].
  set (l := gos 20 4 ++ gos 40 3 ++ gos 20 4 ++ gos 20 6 ++ gos 20 7). exists l, (fst (run (snd (run init crossed)) l)), (snd (run (snd (run init crossed)) l)).
  split; [repeat (apply Forall_app; split); apply gos_go|]. split; [apply surjective_pairing|].
  split; [intro k; do 8 (destruct k as [|k]; [vm_compute; reflexivity|]); vm_compute; reflexivity|]. split; vm_compute; reflexivity.
Qed.
Print Assumptions C144_example.
