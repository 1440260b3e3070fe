(** What the loops of a connection tell its control loop. *)
From Coq Require Import List Bool Arith ZArith Lia.
Import ListNotations.
From Verif Require Import ClientModel ClientSpec ClientProofs FleetClient.
Open Scope Z_scope.

Definition rseen (c : cstate) : bool := match c with CsClosing r _ => r | _ => false end.
Definition wseen (c : cstate) : bool := match c with CsClosing _ w => w | _ => false end.
Record valid4 (c : conn) : Prop := {
  n_nd : NoDup (notes c);
  n_up : cl c = LOk -> cw c <> WOff /\ cr c <> ROff /\ ck c <> KOff;
  n_r : ck c = KRun -> cr c = REnd -> In NRead (notes c) \/ rseen (cs c) = true;
  n_w : ck c = KRun -> wdone c -> In NWrite (notes c) \/ wseen (cs c) = true;
  n_cs : ck c = KRun -> rseen (cs c) && wseen (cs c) = false }.
Lemma valid4_new : valid4 new_conn.
Proof. split; cbn; try discriminate. constructor. Qed.
Lemma cn_open4 : forall k s o s', open k s = (o, s') -> (forall i, valid4 (cn s i)) -> forall i, valid4 (cn s' i).
Proof.
  induction k as [|k IH]; intros s o s' E V; cbn [open] in E; [injection E as <- <-; assumption|].
  destruct (open k _) as [o1 s1] eqn:O. injection E as <- <-. eapply IH; [exact O|]. fields. intro i. spl i (S (curId s)); [|auto]. apply valid4_new.
Qed.
Lemma valid4_step s e o s' : step s e = (o, s') -> (forall i, valid3 (cn s i)) -> (forall i, valid4 (cn s i)) -> forall i, valid4 (cn s' i).
Proof.
  intros E V3 V.
  assert (P : forall j c s1, (valid3 (cn s j) -> valid4 (cn s j) -> valid4 c) -> cn s1 = upd (cn s) j c -> forall i, valid4 (cn s1 i)).
  { intros j c s1 X Y i. rewrite Y. spl i j; auto. }
  assert (Q : cn s' = cn s -> forall i, valid4 (cn s' i)) by (intros ->; assumption).
  assert (SND : forall j k c, (valid3 (cn s j) -> valid4 (cn s j) -> valid4 c) -> send s j k c = (o, s') -> forall i, valid4 (cn s' i)).
  { intros j k c X. unfold send, ok. destruct (_ <? _)%nat; intro Y; injection Y as <- <-; [|auto]. eapply (P j c); [assumption|reflexivity]. }
  assert (TLL : forall j k c, (valid3 (cn s j) -> valid4 (cn s j) -> valid4 (c_notes c (notes c ++ [k]))) -> tell s j k c = (o, s') -> forall i, valid4 (cn s' i)).
  { intros j k c X. unfold tell, ok. destruct (_ <? _)%nat; intro Y; injection Y as <- <-; [|auto]. eapply (P j); [|reflexivity]. exact X. }
  Local Ltac v4 := intros [X1 X2 X3 X4 X5] [Y1 Y2 Y3 Y4 Y5]; unfold wdone in *; split; unfold wdone; fields; try assumption.
  Local Ltac sm := try (intuition congruence).
  destruct e; cbn [step] in E.
  - injection E as <- <-. auto.
  - injection E as <- <-. auto.
  - unfold fix_connections in E. destruct (sp s); try (injection E as <- <-; auto; fail).
    destruct (_ <? 0); [injection E as <- <-; auto|]. destruct (open _ s) as [o1 s1] eqn:O. destruct (after s1) as [o2 s2] eqn:A.
    injection E as <- <-. rewrite (cn_after _ _ _ A). eapply cn_open4; eauto.
  - destruct (ch s) as [|[j k] c0]; [injection E as <- <-; auto|]. unfold server_turn in E. destruct (sp s); try (injection E as <- <-; auto; fail).
    destruct (on_conn_error _ _) as [o1 s1] eqn:O. destruct (after s1) as [o2 s2] eqn:A. injection E as <- <-. apply Q. rewrite (cn_after _ _ _ A).
    unfold on_conn_error in O. fields. destruct k; try destruct (mem _ _); injection O as <- <-; reflexivity.
  - destruct (acts s); [injection E as <- <-; auto|]. unfold server_turn, ok in E. destruct (sp s); try (injection E as <- <-; auto; fail).
    destruct (after _) as [o2 s2] eqn:A. injection E as <- <-. apply Q. now rewrite (cn_after _ _ _ A).
  - destruct (xreq s); [|injection E as <- <-; auto]. unfold server_turn, ok in E. destruct (sp s); try (injection E as <- <-; auto; fail).
    destruct (after _) as [o2 s2] eqn:A. injection E as <- <-. apply Q. now rewrite (cn_after _ _ _ A).
  - destruct (sp s); try (injection E as <- <-; auto; fail). destruct (mem i todo); [|injection E as <- <-; auto].
    destruct (cs (cn s i)) eqn:C; injection E as <- <-; auto; (eapply (P i); [|reflexivity]); v4; rewrite ?C in *; auto.
  - destruct (sp s); try (injection E as <- <-; auto; fail). destruct todo; [|injection E as <- <-; auto]. apply Q. now apply cn_after in E.
  - destruct (cl (cn s i)) eqn:C; try (injection E as <- <-; auto; fail). destruct (mem i (conns s)); injection E as <- <-; [|auto].
    eapply (P i); [|reflexivity]. v4; destruct X1 as (Z1 & Z2 & Z3 & Z4); sm.
  - destruct (cl (cn s i)) eqn:C; injection E as <- <-; auto. eapply (P i); [|reflexivity]. v4; destruct X1 as (Z1 & Z2 & Z3 & Z4); try congruence; destruct b; discriminate.
  - destruct (cl (cn s i)) eqn:C; try (injection E as <- <-; auto; fail); revert E; apply SND; v4; destruct X1 as (Z1 & Z2 & Z3 & Z4); sm.
  - destruct (cl (cn s i)) eqn:C; injection E as <- <-; auto; (eapply (P i); [|reflexivity]); v4; destruct X1 as (Z1 & Z2 & Z3 & Z4); sm.
  - unfold step_w in E. destruct (cw (cn s i)) eqn:C; try (injection E as <- <-; auto; fail).
    1-3: injection E as <- <-; (eapply (P i); [|reflexivity]); v4; rewrite ?C in *; try (destruct (stopped _)); sm.
    + revert E. apply TLL. v4; rewrite ?C in *; sm.
      * apply ClientProofs.snoc_nd; [assumption|]. intro Y. destruct (X2 Y); discriminate.
      * intros K0 R0. rewrite in_app_iff. destruct (Y3 K0 R0); auto.
      * intros. left. apply in_app_iff. right. now left.
    + revert E. apply SND. v4; rewrite ?C in *; sm.
  - destruct (cw (cn s i)) eqn:C; injection E as <- <-; auto; (eapply (P i); [|reflexivity]); v4; rewrite ?C in *; sm.
  - destruct (cw (cn s i)) eqn:C; injection E as <- <-; auto; (eapply (P i); [|reflexivity]); v4; rewrite ?C in *; sm.
  - destruct (sp s); try (injection E as <- <-; auto; fail). destruct (cw (cn s i)) eqn:C; try (injection E as <- <-; auto; fail).
    destruct (_ =? _)%nat; [|injection E as <- <-; auto].
    assert (Y : cn s' = upd (cn s) i (c_cw (cn s i) WNote)).
    { destruct (k + 1 =? 0); [apply cn_after in E|injection E as <- <-]; destruct d; try rewrite E; reflexivity. }
    eapply (P i); [|exact Y]. clear Y. v4; rewrite ?C in *; sm.
  - destruct (cr (cn s i)) eqn:C; injection E as <- <-; auto; (eapply (P i); [|reflexivity]); v4; rewrite ?C in *; sm.
  - destruct (cr (cn s i)) eqn:C; try (injection E as <- <-; auto; fail). revert E. apply TLL. v4; rewrite ?C in *; sm.
    + apply ClientProofs.snoc_nd; [assumption|]. intro Y. specialize (X3 Y). discriminate.
    + intros. left. apply in_app_iff. right. now left.
    + intros K0 R0. rewrite in_app_iff. destruct (Y4 K0 R0); auto.
  - unfold step_k in E. destruct (ck (cn s i)) eqn:C; try (injection E as <- <-; auto; fail).
    + destruct (notes (cn s i)) as [|n ns] eqn:Nt; [injection E as <- <-; auto|].
      destruct (match cs (cn s i) with CsClosing r w => (r, w) | _ => (false, false) end) as [r w] eqn:Ec.
      destruct (match n with NWrite => (r, true) | NRead => (true, w) end) as [r1 w1] eqn:Er.
      injection E as <- <-. eapply (P i); [|reflexivity]. v4; rewrite ?C, ?Nt in *.
      assert (RW : r = rseen (cs (cn s i)) /\ w = wseen (cs (cn s i))) by (destruct (cs (cn s i)); injection Ec as <- <-; now split). destruct RW as [-> ->].
      * now inversion Y1.
      * intro L0. destruct (Y2 L0) as (?&?&_). repeat split; auto. destruct (r1 && w1); discriminate.
      * intros _ R0. assert (RW : r = rseen (cs (cn s i)) /\ w = wseen (cs (cn s i))) by (destruct (cs (cn s i)); injection Ec as <- <-; now split). destruct RW as [-> ->].
        cbn [rseen]. destruct (Y3 eq_refl R0) as [[->|I0]|I0]; [injection Er as <- <-; auto|auto|]. right. destruct n; injection Er as <- <-; auto.
      * intros _ R0. assert (RW : r = rseen (cs (cn s i)) /\ w = wseen (cs (cn s i))) by (destruct (cs (cn s i)); injection Ec as <- <-; now split). destruct RW as [-> ->].
        cbn [wseen]. destruct (Y4 eq_refl R0) as [[->|I0]|I0]; [injection Er as <- <-; auto|auto|]. right. destruct n; injection Er as <- <-; auto.
      * cbn [rseen wseen]. destruct (r1 && w1); [discriminate|reflexivity].
    + revert E. apply SND. v4; sm.
    + injection E as <- <-. eapply (P i); [|reflexivity]. v4; sm.
Qed.
Lemma creach_valid4 n t s : creach n t s -> forall i, valid4 (cn s i).
Proof.
  intros [es E]. revert t s E. induction es as [|e es IH] using rev_ind; intros t s E.
  - unfold start in E. destruct (s_init n) as [o0 s0] eqn:S0. cbn [run] in E. injection E as _ <-. unfold s_init in S0. eapply cn_open4; [exact S0|]. intro i. apply valid4_new.
  - pose proof E as E0. unfold start in E. destruct (s_init n) as [o0 s0] eqn:S0. rewrite run_snoc in E. destruct (run s0 es) as [o1 s1] eqn:R. destruct (step s1 e) as [o2 s2] eqn:S1. injection E as _ <-.
    assert (E1 : start n es = (o0 ++ o1, s1)) by (unfold start; rewrite S0, R; reflexivity). eapply valid4_step; [exact S1|eapply start_valid3; eauto|eapply IH; eauto].
Qed.
