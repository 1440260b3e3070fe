(** C89, continued: what the listener does with connections that come while the server stops (net/server/server.go:100-126). *)
From Coq Require Import List Bool Arith Lia.
Import ListNotations.
From Verif Require Import ListenModel ListenSpec ListenProofs.

(** bookkeeping: how many connections were accepted only to be closed at once *)
Definition rejected (t : list obs) : nat := length (filter (fun o => match o with OReject => true | _ => false end) t).
Lemma rejected_app a b : rejected (a ++ b) = rejected a + rejected b.
Proof. unfold rejected. now rewrite filter_app, app_length. Qed.
Lemma rejected_tell l : rejected (map OTell l) = 0.
Proof. induction l; [reflexivity|exact IHl]. Qed.
Definition once (t : list obs) (s : st) : Prop := rejected t <= 1 /\ (1 <= rejected t -> lp s = LEnd).
Lemma step_reject s e o s' : step s e = (o, s') -> (rejected o = 0 /\ (lp s = LEnd -> lp s' = LEnd)) \/ (rejected o = 1 /\ lp s <> LEnd /\ lp s' = LEnd).
Proof.
  destruct e as [b| |k| |i| |i|i|i|i]; cbn [step].
  - unfold step_accept. destruct (lp s) eqn:L; intros E; injection E as <- <-; left; split; try reflexivity; intros; try discriminate; exact L.
  - unfold step_listen. destruct (free s); [|intros E; injection E as <- <-; left; split; [reflexivity|auto]].
    destruct (lp s) eqn:L; try (destruct (closing s)); intros E; injection E as <- <-; try (left; split; [reflexivity|intros; try discriminate; exact L]).
    + right. split; [reflexivity|]. split; [discriminate|reflexivity].
  - unfold step_stop. destruct (sp s k), (free s), (stopq s); intros E; injection E as <- <-; left; split; try reflexivity; auto.
  - destruct (kp s), (stopq s); intros E; injection E as <- <-; left; split; try reflexivity; auto.
  - destruct (kp s), (cp s i); intros E; injection E as <- <-; left; split; try reflexivity; auto.
  - unfold step_ctl. destruct (free s); [|intros E; injection E as <- <-; left; split; [reflexivity|auto]].
    destruct (kp s); cbv zeta; [| |destruct (is_nil (conns s))|]; try destruct (_ && _); intros E; injection E as <- <-; left; (split; [rewrite ?rejected_app, ?rejected_tell; reflexivity|auto]).
  - destruct (rd s i); intros E; injection E as <- <-; left; split; try reflexivity; auto.
  - intros E; injection E as <- <-; left; split; try reflexivity; auto.
  - destruct (cp s i); intros E; injection E as <- <-; left; split; try reflexivity; auto.
  - destruct (cp s i), (rd s i); intros E; injection E as <- <-; left; split; try reflexivity; auto.
Qed.
Lemma once_step t s e o s' : once t s -> step s e = (o, s') -> once (t ++ o) s'.
Proof.
  intros [A B] E. unfold once. rewrite rejected_app. destruct (step_reject _ _ _ _ E) as [[-> K]|(-> & N & K)].
  - rewrite Nat.add_0_r. split; [exact A|]. intro X. apply K, B, X.
  - assert (rejected t = 0). { destruct (rejected t); [reflexivity|]. elim N. apply B. lia. } split; [lia|auto].
Qed.
Definition over (t : list obs) (s : st) : Prop := lp s = LEnd -> closing s = true.
Lemma over_step t s e o s' : over t s -> step s e = (o, s') -> over (t ++ o) s'.
Proof.
  unfold over. intros H E. destruct e; cbn [step] in E; unfold step_accept, step_listen, step_stop, step_ctl, ok in E.
  all: repeat match type of E with context [match ?x with _ => _ end] => destruct x eqn:? end; injection E as <- <-; cbn; intro L; auto; try discriminate; congruence.
Qed.
(** In every history at most one connection is accepted only to be closed at once, and after it the listener neither serves nor rejects another. *)
Theorem C89_rejects_at_most_one : forall es t s, start es = (t, s) ->
  rejected t <= 1 /\
  (In OReject t -> forall es' t' s', run s es' = (t', s') -> rejected t' = 0 /\ forall i, ~ In (OServe i) t').
Proof.
  intros es t s E. assert (O : once t s).
  { refine (run_inv once once_step es [] s_init t s _ E). split; [cbn; lia|cbn; lia]. }
  split; [exact (proj1 O)|]. intros R es' t' s' E'.
  assert (P : 1 <= rejected t).
  { unfold rejected. assert (X : In OReject (filter (fun o => match o with OReject => true | _ => false end) t)) by (apply filter_In; now split). destruct (filter _ t); [destruct X|cbn; lia]. }
  pose proof (run_inv once once_step es' t s t' s' O E') as [A _]. rewrite rejected_app in A. split; [lia|].
  assert (V : over t s) by (refine (run_inv over over_step es [] s_init t s _ E); discriminate).
  refine (run_no_serve es' t s t' s' _ _ E'); [exact (run_inv Inv step_inv es [] s_init t s init_inv E)|apply V, O, P].
Qed.
Print Assumptions C89_rejects_at_most_one.
(** Example: Stop comes between Accept and the lock; the connection is closed at once, later events change nothing. *)
Example C89_rejects : exists s, start [Accept true; Stop 0; Stop 0; Listen; Accept true; Listen; Stop 0] = ([OReject; OStopped 0], s).
Proof. eexists. vm_compute. reflexivity. Qed.
