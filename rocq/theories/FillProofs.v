(** Each Fill under way was called by the next; the registry is that of RegModel. *)
From Coq Require Import List Bool Arith Lia Relations.
Import ListNotations.
From Verif Require Import RegModel RegSpec RegProofs FillModel.

Definition needs (prog : nat -> list instr) (t : nat) : list nat := flat_map (fun i => match i with Need u => [u] | Fail => [] end) (prog t).
Section Fill.
Variable prog : nat -> list instr.
Variable info : Type.
Variable pend : nat -> info.
Variable fin : nat -> list info -> info.
Lemma needs_part t u : In u (needs prog t) <-> part prog t u.
Proof.
  unfold needs, part. rewrite in_flat_map. split.
  - intros ([w|] & W & U); [destruct U as [->|[]]; exact W|destruct U].
  - intro W. exists (Need u). split; [exact W|now left].
Qed.
Fixpoint chain (l : list frame) : Prop :=
  match l with
  | f1 :: (f2 :: _) as l' => part prog (fst (fst f2)) (fst (fst f1)) /\ chain l'
  | _ => True
  end.
Lemma chain_parts f l : chain (f :: l) -> forall f', In f' (f :: l) -> parts prog (fst (fst f')) (fst (fst f)).
Proof.
  revert f. induction l as [|g l IH]; intros f C f' F.
  - destruct F as [->|[]]. apply rt_refl.
  - cbn [chain] in C. destruct C as [C1 C2]. destruct F as [->|F]; [apply rt_refl|]. apply rt_trans with (fst (fst g)); [now apply IH|now apply rt_step].
Qed.
Lemma chain_tl f l : chain (f :: l) -> chain l.
Proof. destruct l; [trivial|now intros []]. Qed.
Lemma chain_hd t o p p' l : chain ((t, o, p) :: l) -> chain ((t, o, p') :: l).
Proof. now destruct l. Qed.
Lemma links_needs m p l : Forall2 (link m) p l -> Forall2 (fun u o => m u = Some o) (flat_map (fun i => match i with Need u => [u] | Fail => [] end) p) l.
Proof. induction 1 as [|i o p l H F IH]; [constructor|]. destruct i as [u|]; [|destruct H]. cbn. constructor; [exact H|exact IH]. Qed.
Record IInv (t : list obs) (s : st) : Prop := mkIInv { jInv : Inv prog t s; jChain : chain (stk s) }.
Lemma iinit_inv : IInv [] s_init.
Proof. split; [apply init_inv|exact Logic.I]. Qed.
Lemma istep_inv t s e : IInv t s -> IInv (t ++ fst (step prog s e)) (snd (step prog s e)).
Proof.
  intros [J1 J2]. split; [now apply step_inv|]. destruct e as [k u|k]; cbn [step].
  - now destruct (pcs s k).
  - destruct (pcs s k) as [|u|u|u|u|u v|u|u v| |] eqn:E; try exact J2; try (destruct (ws s u); exact J2); try (destruct (lock s); exact J2); [exact Logic.I|].
    pose proof (iBld _ _ _ J1 k u v E) as B. unfold step_build. destruct (stk s) as [|[[t1 o1] [|[t2|] p]] rest] eqn:K; fields; [exact Logic.I|now apply (chain_tl (t1, o1, []))| |cbn; rewrite K; exact J2].
    assert (F1 : In (t1, o1, Need t2 :: p) (stk s)) by (rewrite K; now left). destruct (bStk _ _ _ _ B _ _ _ F1) as (_ & _ & _ & pre & S4 & _).
    assert (PT : part prog t1 t2) by (unfold part; rewrite S4; apply in_or_app; right; now left).
    destruct (wss s t2); fields; [now apply (chain_hd t1 o1 (Need t2 :: p))|exact (conj PT (chain_hd t1 o1 (Need t2 :: p) p rest J2))].
Qed.
End Fill.
