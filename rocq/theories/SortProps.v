(** C136: the results of a MultiRequest in the order of its requests. *)
From Coq Require Import List Bool Arith Lia Permutation Sorted.
Import ListNotations.
From Verif Require Import MultiModel MultiSpec MultiTrace RoundModel RoundSpec RoundProofs RoundProps SortModel.

Lemma perm_of_swap (mr : list nat) i j : i < length mr -> j < length mr -> Permutation mr (Swap mr i j).
Proof.
  intros Hi Hj. unfold Swap. set (g := fun k => if k =? i then j else if k =? j then i else k).
  assert (G : forall k, k < length mr -> g k < length mr) by (intros k K; unfold g; destruct (k =? i); [assumption|destruct (k =? j); assumption]).
  assert (V : forall k, g (g k) = k) by (intro k; unfold g; destruct (Nat.eqb_spec k i) as [->|N1]; [rewrite Nat.eqb_refl; destruct (Nat.eqb_spec j i); congruence|destruct (Nat.eqb_spec k j) as [->|N2]; [now rewrite Nat.eqb_refl|rewrite (proj2 (Nat.eqb_neq _ _) N1), (proj2 (Nat.eqb_neq _ _) N2); reflexivity]]).
  rewrite <- (map_map g (fun k => nth k mr 0)). assert (E : mr = map (fun k => nth k mr 0) (seq 0 (length mr))).
  { apply (nth_ext _ _ 0 0); [now rewrite map_length, seq_length|]. intros n H. rewrite (nth_indep (map _ _) 0 (nth 0 mr 0)) by (now rewrite map_length, seq_length). rewrite (map_nth (fun k => nth k mr 0)), seq_nth by assumption. reflexivity. }
  rewrite E at 1. apply Permutation_map. apply NoDup_Permutation; [apply seq_NoDup| |].
  - apply FinFun.Injective_map_NoDup; [|apply seq_NoDup]. intros a b H. rewrite <- (V a), <- (V b). now rewrite H.
  - intro k. rewrite in_seq, in_map_iff. split.
    + intro H. exists (g k). split; [apply V|]. rewrite in_seq. specialize (G k). lia.
    + intros (m & <- & H). rewrite in_seq in H. specialize (G m). lia.
Qed.
Lemma swaps_perm mr mr' : Swaps mr mr' -> Permutation mr mr'.
Proof. induction 1 as [|mr i j mr' Hi Hj _ IH]; [reflexivity|]. rewrite <- IH. now apply perm_of_swap. Qed.
Lemma sorted_unique : forall l m, (forall i j, i < j < length l -> Less l j i = false) -> (forall i j, i < j < length m -> Less m j i = false) -> Permutation l m -> l = m.
Proof.
  induction l as [|a l IH]; intros [|b m] L M P.
  - reflexivity.
  - apply Permutation_length in P. discriminate.
  - apply Permutation_length in P. discriminate.
  - assert (H : forall x r y, (forall i j, i < j < length (x :: r) -> Less (x :: r) j i = false) -> In y r -> x <= y).
    { intros x r y Q Y. apply In_nth_error in Y. destruct Y as [n N]. assert (n < length r) by (apply nth_error_Some; congruence). specialize (Q 0 (S n)). cbn [length] in Q. specialize (Q ltac:(lia)). unfold Less in Q. cbn [nth_error] in Q. rewrite N in Q. now apply Nat.ltb_ge in Q. }
    assert (E : a = b).
    { assert (A : In a (b :: m)) by (eapply Permutation_in; [exact P|now left]). assert (B : In b (a :: l)) by (eapply Permutation_in; [apply Permutation_sym; exact P|now left]).
      destruct A as [->|A]; [reflexivity|]. destruct B as [->|B]; [reflexivity|]. pose proof (H _ _ _ L B). pose proof (H _ _ _ M A). lia. }
    subst b. f_equal. apply Permutation_cons_inv in P. apply IH; [| |exact P].
    + intros i j Hi. exact (L (S i) (S j) ltac:(cbn [length]; lia)).
    + intros i j Hi. exact (M (S i) (S j) ltac:(cbn [length]; lia)).
Qed.
Lemma seq_sorted a n i j : i < j < length (seq a n) -> Less (seq a n) j i = false.
Proof.
  rewrite seq_length. intro H. unfold Less. rewrite !(nth_error_nth' _ 0) by (rewrite seq_length; lia). rewrite !seq_nth by lia. apply Nat.ltb_ge. lia.
Qed.
Lemma app_len {A} : forall (a b c d : list A), length a = length b -> a ++ c = b ++ d -> a = b /\ c = d.
Proof. induction a as [|x a IH]; intros [|y b] c d L E; try discriminate L; [now split|]. injection E as -> E. injection L as L. destruct (IH b c d L E) as [-> ->]. now split. Qed.
(** what Results gave, sorted, is what was requested since the results before, in the order of the requests *)
Theorem C136_sorted_results es t s : rrun r_init es = (t, Some s) -> not_after_each r_init es ->
  forall t0 t1 l t2, t = t0 ++ t1 ++ OResult l :: t2 -> (t0 = [] \/ exists u l0, t0 = u ++ [OResult l0]) -> results t1 = [] ->
  forall l', Sort l l' -> l' = issued t1.
Proof.
  intros H N t0 t1 l t2 E F Z l' [W S]. pose proof (C126_results_of_a_round es t (Some s) H N t0 t1 l t2 E F Z) as P.
  pose proof (ri_iss _ _ (rreach_RI _ _ (rrun_reach es [] r_init t s rreach0 N H))) as Q. cbn [app] in Q.
  rewrite E, !issued_app in Q.
  assert (Q1 : exists k n, issued t1 = seq k n).
  { clear - Q. revert Q. generalize 0. generalize (pre (base s)). intros n k Q. set (a := issued t0) in *. set (b := issued t1) in *. set (c := issued (OResult l :: t2)) in *.
    exists (k + length a), (length b). assert (M : n = length a + (length b + length c)) by (apply (f_equal (@length nat)) in Q; rewrite !app_length, seq_length in Q; lia).
    subst n. rewrite !seq_app in Q. apply app_len in Q; [|now rewrite seq_length]. destruct Q as [_ Q]. apply app_len in Q; [|now rewrite seq_length]. exact (proj1 Q). }
  destruct Q1 as (k & n & Q1). apply sorted_unique; [exact S|rewrite Q1; apply seq_sorted|]. rewrite <- P. apply Permutation_sym, swaps_perm, W.
Qed.
(** three requests, answered in another order, then one more *)
Example C136_example : exists t s, let es := [B Issue] ++ own 1 ++ [B Issue] ++ own 1 ++ [B Issue] ++ own 1 ++ [B (Answer 2)] ++ resp_ 2 4 ++ [B (Answer 0)] ++ resp_ 0 4 ++ [B (Answer 1)] ++ resp_ 1 4 ++ [B Results] ++ own 8 in
  rrun r_init es = (t, Some s) /\ t = [OIssued 0; OIssued 1; OIssued 2; OPerform 2; OPerform 0; OPerform 1; OResult [2; 0; 1]] /\ Sort [2; 0; 1] [0; 1; 2].
Proof.
  do 2 eexists. cbv zeta. split; [vm_compute; reflexivity|]. split; [reflexivity|]. split.
  - apply (swaps_one _ 0 1); [cbn; lia|cbn; lia|]. apply (swaps_one _ 1 2); [cbn; lia|cbn; lia|]. apply swaps_none.
  - intros i j H. cbn [length] in H. assert (i = 0 \/ i = 1) as [-> | ->] by lia; (assert (j = 1 \/ j = 2) as [-> | ->] by lia); try lia; reflexivity.
Qed.
Print Assumptions C136_sorted_results.
