(** How a step of the endpoint changes the loops of its connections. *)
From Coq Require Import List Bool Arith ZArith Lia.
Import ListNotations.
From Verif Require Import ClientModel ClientSpec ClientProofs.
Open Scope Z_scope.

Definition chg (e : ev) (i : nat) (c c' : conn) : Prop :=
  (cw c = WReq -> cw c' = WReq \/ e = W i \/ e = WFail i) /\
  (cr c = RRun -> cr c' = RRun \/ e = RFail i) /\
  (ck c = KEnd -> ck c' = KEnd) /\
  (ck c' = KEnd -> ck c = KEnd \/ (e = K i /\ ck c = KFlush)).
Lemma chg_refl e i c : chg e i c c. Proof. unfold chg. tauto. Qed.
Lemma chg_open e i : forall k s o s', open k s = (o, s') -> (forall j, (curId s < j)%nat -> cn s j = new_conn) -> chg e i (cn s i) (cn s' i).
Proof.
  induction k as [|k IH]; intros s o s' E N; cbn [open] in E; [injection E as <- <-; apply chg_refl|].
  destruct (open k _) as [o1 s1] eqn:O. injection E as <- <-. apply IH in O.
  - revert O. fields. spl i (S (curId s)); [|auto]. rewrite (N (S (curId s))) by lia. auto.
  - fields. intros j J. spl j (S (curId s)); [reflexivity|]. apply N. lia.
Qed.
Ltac cg := unfold chg; fields; repeat split; intros; try congruence; auto.
Lemma chg_step s e o s' : step s e = (o, s') -> (forall j, valid3 (cn s j)) -> (forall j, (curId s < j)%nat -> cn s j = new_conn) -> forall i, chg e i (cn s i) (cn s' i).
Proof.
  intros E V N i.
  assert (P : forall j c s1, chg e j (cn s j) c -> cn s1 = upd (cn s) j c -> chg e i (cn s i) (cn s1 i)).
  { intros j c s1 X Y. rewrite Y. spl i j; [assumption|apply chg_refl]. }
  assert (Q : cn s' = cn s -> chg e i (cn s i) (cn s' i)) by (intros ->; apply chg_refl).
  assert (SK : ok s = (o, s') -> chg e i (cn s i) (cn s' i)) by (intro Y; injection Y as <- <-; apply chg_refl).
  assert (SND : forall j k c, chg e j (cn s j) c -> send s j k c = (o, s') -> chg e i (cn s i) (cn s' i)).
  { intros j k c X. unfold send. destruct (_ <? _)%nat; [|exact SK]. intro Y. injection Y as <- <-. eapply (P j c); [assumption|reflexivity]. }
  assert (TLL : forall j k c, chg e j (cn s j) (c_notes c (notes c ++ [k])) -> tell s j k c = (o, s') -> chg e i (cn s i) (cn s' i)).
  { intros j k c X. unfold tell. destruct (_ <? _)%nat; [|exact SK]. intro Y. injection Y as <- <-. eapply (P j); [exact X|reflexivity]. }
  destruct e; cbn [step] in E.
  - injection E as <- <-. apply Q. reflexivity.
  - injection E as <- <-. apply Q. reflexivity.
  - unfold fix_connections in E. destruct (sp s); auto.
    destruct (_ <? 0); [injection E as <- <-; apply Q; reflexivity|]. destruct (open _ s) as [o1 s1] eqn:O. destruct (after s1) as [o2 s2] eqn:A.
    injection E as <- <-. rewrite (cn_after _ _ _ A). eapply chg_open; eauto.
  - destruct (ch s) as [|[j k] c0]; auto. unfold server_turn in E. destruct (sp s); auto.
    destruct (on_conn_error _ _) as [o1 s1] eqn:O. destruct (after s1) as [o2 s2] eqn:A. injection E as <- <-. apply Q. rewrite (cn_after _ _ _ A).
    unfold on_conn_error in O. fields. destruct k; try destruct (mem _ _); injection O as <- <-; reflexivity.
  - destruct (acts s); auto. unfold server_turn, ok in E. destruct (sp s); auto.
    destruct (after _) as [o2 s2] eqn:A. injection E as <- <-. apply Q. now rewrite (cn_after _ _ _ A).
  - destruct (xreq s); auto. unfold server_turn, ok in E. destruct (sp s); auto.
    destruct (after _) as [o2 s2] eqn:A. injection E as <- <-. apply Q. now rewrite (cn_after _ _ _ A).
  - destruct (sp s); auto. destruct (mem i0 todo); auto.
    destruct (cs (cn s i0)) eqn:C; injection E as <- <-; first [apply Q; reflexivity | eapply (P i0); [|reflexivity]; cg].
  - destruct (sp s); auto. destruct todo; auto. apply Q. now apply cn_after in E.
  - destruct (cl (cn s i0)) eqn:C; auto. destruct (mem i0 (conns s)); [|auto]. injection E as <- <-. eapply (P i0); [|reflexivity]; cg.
  - destruct (cl (cn s i0)) eqn:C; auto. injection E as <- <-. eapply (P i0); [|reflexivity]; cg.
  - destruct (cl (cn s i0)) eqn:C; auto; revert E; apply SND; cg.
  - destruct (cl (cn s i0)) eqn:C; auto; injection E as <- <-; (eapply (P i0); [|reflexivity]).
    + destruct (v_off _ (V i0)) as (X1 & X2 & X3 & X4); [congruence|]. cg.
    + cg.
  - unfold step_w in E. destruct (cw (cn s i0)) eqn:C; auto.
    1-3: injection E as <- <-; (eapply (P i0); [|reflexivity]); cg.
    + revert E. apply TLL. cg.
    + revert E. apply SND. cg.
  - destruct (cw (cn s i0)) eqn:C; auto; injection E as <- <-; (eapply (P i0); [|reflexivity]); cg.
  - destruct (cw (cn s i0)) eqn:C; auto; injection E as <- <-; (eapply (P i0); [|reflexivity]); cg.
  - destruct (sp s); auto. destruct (cw (cn s i0)) eqn:C; auto. destruct (_ =? _)%nat; auto.
    assert (Y : cn s' = upd (cn s) i0 (c_cw (cn s i0) WNote)).
    { destruct (k + 1 =? 0); [apply cn_after in E|injection E as <- <-]; destruct d; try rewrite E; reflexivity. }
    eapply (P i0); [|exact Y]. cg.
  - destruct (cr (cn s i0)) eqn:C; auto; injection E as <- <-; (eapply (P i0); [|reflexivity]); cg.
  - destruct (cr (cn s i0)) eqn:C; auto. revert E. apply TLL. cg.
  - unfold step_k in E. destruct (ck (cn s i0)) eqn:C; auto.
    + destruct (notes (cn s i0)) as [|n ns] eqn:Nt; auto.
      destruct (match cs (cn s i0) with CsClosing r w => (r, w) | _ => (false, false) end) as [r w] eqn:Ec.
      destruct (match n with NWrite => (r, true) | NRead => (true, w) end) as [r1 w1] eqn:Er.
      injection E as <- <-. eapply (P i0); [|reflexivity]. cg. destruct (r1 && w1); discriminate.
    + revert E. apply SND. cg.
    + injection E as <- <-. eapply (P i0); [|reflexivity]. cg.
Qed.
(** a reachable endpoint *)
Definition creach (n : Z) (t : list obs) (s : st) : Prop := exists es, start n es = (t, s).
Lemma run_snoc es e : forall s, run s (es ++ [e]) = let '(o, s1) := run s es in let '(o2, s2) := step s1 e in (o ++ o2, s2).
Proof.
  induction es as [|x es IH]; intro s; cbn [run app].
  - destruct (step s e) as [o s1]. now rewrite app_nil_r.
  - destruct (step s x) as [o s1]. rewrite IH. destruct (run s1 es) as [o2 s2]. destruct (step s2 e) as [o3 s3]. now rewrite app_assoc.
Qed.
Lemma creach_step n t s e o s' : creach n t s -> step s e = (o, s') -> creach n (t ++ o) s'.
Proof.
  intros [es E] S. exists (es ++ [e]). unfold start in *. destruct (s_init n) as [o0 s0]. rewrite run_snoc. destruct (run s0 es) as [o1 s1].
  injection E as <- <-. rewrite S. now rewrite app_assoc.
Qed.
Lemma creach_init n o s : s_init n = (o, s) -> creach n o s.
Proof. intro E. exists []. unfold start. rewrite E. cbn [run]. now rewrite app_nil_r. Qed.
Lemma creach_new n t s : creach n t s -> forall j, (curId s < j)%nat -> cn s j = new_conn.
Proof. intros [es E] j J. apply start_GI in E. apply (g_new _ _ E j). unfold exists_conn. lia. Qed.
Lemma creach_valid n t s : creach n t s -> forall i, valid3 (cn s i).
Proof. intros [es E]. eapply start_valid3; eauto. Qed.
Lemma creach_chg n t s e o s' : creach n t s -> step s e = (o, s') -> forall i, chg e i (cn s i) (cn s' i).
Proof. intros R E. eapply chg_step; [exact E|eapply creach_valid; eauto|eapply creach_new; eauto]. Qed.
