(** The properties of the writing of named types. *)
From Coq Require Import ZArith List Bool Arith Lia Permutation.
Import ListNotations.
From Verif Require Import Base PrimModel.
From Verif Require CodecModel.
From Verif Require Import RegModel FillModel NomModel NomSpec NomProofs NomRec.
Open Scope Z_scope.

(** * C113: what is written does not depend on which types were written before *)
(** The codec of a type, and the codecs it points to, are the same after every history: any types asked for before, in any
    order, by any number of goroutines; if whatever in the type contains itself has a size that varies from its first field on. *)
Theorem C113_codecs_partial : forall T es es' t, tame T t -> given T es t -> given T es' t ->
  forall u, within T t u -> after T es u = after T es' u.
Proof. exact codecs_same. Qed.
Print Assumptions C113_codecs_partial.
(** Write and WriteTail then give the same bytes. *)
Theorem C113_written_partial : forall T i g g', (forall t, holds t i -> tame T t) -> found T g i -> found T g' i ->
  Write T g i = Write T g' i /\ WriteTail T g i = WriteTail T g' i.
Proof. intros T i g g' P F F'. pose proof (found_agree T g g' i P F F') as V. split; [now apply Write_eq|now apply WriteTail_eq]. Qed.
Print Assumptions C113_written_partial.

(** type T struct { A int8; Kids []T }, []T, struct { K []T `iproto:"size(i32)"` }, int8 *)
Definition tree (t : nat) : shape :=
  match t with
  | 0 => SStruct [(TgAuto, 3); (TgAuto, 1)]
  | 1 => SSl 0
  | 2 => SStruct [(TgSize P32, 1)]
  | _ => SNum I8
  end%nat.
Definition forest : dv := VDyn 2 (VSeq [VSeq [VSeq [VNum 5; VSeq []]]]).
(** Types that contain themselves: the same three goroutines ask for the same three types; if that of []T comes first, then the
    size written before the slice is 0, otherwise it is 5. *)
Theorem C113_refuted : exists T i es es', Permutation es es' /\
  (forall t, holds t i -> given T es t /\ given T es' t) /\
  Write T (after T es) i = Ok [0;0;0;0; 5;0;0;0;0] /\ Write T (after T es') i = Ok [5;0;0;0; 5;0;0;0;0].
Proof.
  exists tree, forest, (calls 20 0 1 ++ calls 20 1 0 ++ calls 20 2 2), (calls 20 1 0 ++ calls 20 0 1 ++ calls 20 2 2).
  split; [rewrite !app_assoc; apply Permutation_app_tail, Permutation_app_comm|]. split; [|split; vm_compute; reflexivity].
  intros t H. assert (E : t = 2%nat).
  { unfold forest in H. repeat match goal with
    | H : holds _ (VDyn _ _) |- _ => inversion H; clear H; subst
    | H : holds _ (VSeq _) |- _ => inversion H; clear H; subst
    | H : holds _ (VNum _) |- _ => inversion H
    | H : In _ _ |- _ => cbn in H
    | H : _ \/ _ |- _ => destruct H as [<-|H]
    | H : False |- _ => destruct H
    end; reflexivity. }
  subst t. split; [exists 2%nat; eexists; vm_compute; tauto|exists 2%nat; eexists; vm_compute; tauto].
Qed.
Print Assumptions C113_refuted.

(** the hypotheses are met: struct { A int8; B []P `size(i16)`; C interface{} } with P = struct { int8; int8 }, C = ["x", P{8,9}];
    in one history the parts were asked for before, in the other by two goroutines at once *)
Definition flat (t : nat) : shape :=
  match t with
  | 0 => SStruct [(TgAuto, 3); (TgSize CodecModel.P16, 1); (TgAuto, 4)]
  | 1 => SSl 2
  | 2 => SStruct [(TgAuto, 3); (TgAuto, 3)]
  | 4 => SIface
  | 5 => SSl 4
  | 6 => SStr
  | _ => SNum I8
  end%nat.
Definition fval : dv := VDyn 0 (VSeq [VNum 5; VSeq [VSeq [VNum 6; VNum 7]]; VDyn 5 (VSeq [VDyn 6 (VStr [120]); VDyn 2 (VSeq [VNum 8; VNum 9])])]).
Definition fes : list ev := calls 20 0 1 ++ calls 20 1 5 ++ calls 20 2 2 ++ calls 20 3 6 ++ calls 20 4 0.
Definition fes' : list ev := [Call 0 0; Call 1 0]%nat ++ repeat (Go 0%nat) 5 ++ repeat (Go 1%nat) 7 ++ repeat (Go 0%nat) 20 ++ repeat (Go 1%nat) 10 ++ calls 20 4 2 ++ calls 20 2 5 ++ calls 20 3 6.
(** contains: a rank of the types that goes down *)
Lemma ranked T (r : nat -> nat) t : (forall u w, contains T u w -> (r w < r u)%nat) -> tame T t.
Proof.
  intros R u W (w & C & D). exfalso. assert (X : (r u <= r w)%nat).
  { clear C W. induction D as [|x y _ IH C]; [lia|]. specialize (R x y C). lia. }
  specialize (R u w C). lia.
Qed.
Lemma flat_tame t : tame flat t.
Proof.
  apply (ranked flat (fun u => match u with 0 => 3 | 1 => 2 | 2 => 1 | 5 => 1 | _ => 0 end)%nat). intros u w C. unfold contains in C.
  do 7 (destruct u as [|u]; [cbn in C; try contradiction; try (subst w; cbn; lia); destruct C as (tg & C & _); cbn in C; repeat (destruct C as [C|C]; [injection C as <- <-; cbn; lia|]); destruct C|]). destruct C.
Qed.
Lemma flat_given t : holds t fval -> given flat fes t /\ given flat fes' t.
Proof.
  intro H. assert (E : t = 0%nat \/ t = 5%nat \/ t = 6%nat \/ t = 2%nat).
  { unfold fval in H. repeat match goal with
    | H : holds _ (VDyn _ _) |- _ => inversion H; clear H; subst
    | H : holds _ (VSeq _) |- _ => inversion H; clear H; subst
    | H : holds _ (VNum _) |- _ => inversion H
    | H : holds _ (VStr _) |- _ => inversion H
    | H : In _ _ |- _ => cbn in H
    | H : _ \/ _ |- _ => destruct H as [<-|H]
    | H : False |- _ => destruct H
    end; tauto. }
  destruct E as [->|[->|[->| ->]]]; split;
  [exists 4%nat|exists 0%nat|exists 1%nat|exists 2%nat|exists 3%nat|exists 3%nat|exists 2%nat|exists 4%nat]; eexists; vm_compute; tauto.
Qed.
Example C113_met : found flat (after flat fes) fval /\ found flat (after flat fes') fval.
Proof. split; intros t H; [exists fes; split; [exact (proj1 (flat_given t H))|reflexivity]|exists fes'; split; [exact (proj2 (flat_given t H))|reflexivity]]. Qed.
Example C113_bytes : Write flat (after flat fes) fval = Ok [5; 2;0; 6;7; 2;0;0;0; 120; 8;9] /\ Write flat (after flat fes') fval = Ok [5; 2;0; 6;7; 2;0;0;0; 120; 8;9].
Proof.
  split; [|destruct (C113_written_partial flat fval (after flat fes') (after flat fes)) as [-> _]; [intros; apply flat_tame|exact (proj2 C113_met)|exact (proj1 C113_met)|]]; vm_compute; reflexivity.
Qed.

(** type T struct { Kids []T; A int8 }, []T, struct { K []T `iproto:"size(i32)"` }, int8 *)
Definition tree2 (t : nat) : shape :=
  match t with
  | 0 => SStruct [(TgAuto, 1); (TgAuto, 3)]
  | 1 => SSl 0
  | 2 => SStruct [(TgSize P32, 1)]
  | _ => SNum I8
  end%nat.
Definition forest2 : dv := VDyn 2 (VSeq [VSeq [VSeq [VSeq [VSeq [VSeq []; VNum 6]]; VNum 5]]]).
Example C113_recursive_tame : tame tree2 2%nat.
Proof.
  assert (V1 : varies tree2 1%nat) by (apply varies_leaf; exact Logic.I).
  assert (V0 : varies tree2 0%nat) by now apply (varies_struct _ _ [] 1%nat [(TgAuto, 3%nat)]).
  intros u W (w & C & D). destruct u as [|[|[|u]]]; [exact V0|exact V1| |destruct C]. exfalso.
  destruct C as (tg & [C|[]] & _). injection C as <- <-.
  assert (X : forall x, within tree2 1%nat x -> x <> 2%nat).
  { intros x X. induction X as [|x y _ IH C]; [discriminate|]. destruct x as [|[|[|x]]]; cbn in C; [|lia|lia|destruct C].
    destruct C as (tg & [C|[C|[]]] & _); injection C as <- <-; discriminate. }
  now apply (X 2%nat).
Qed.
Example C113_recursive_met : given tree2 (calls 20 0 1 ++ calls 20 1 0 ++ calls 20 2 2) 2%nat /\ given tree2 (calls 20 1 0 ++ calls 20 0 1 ++ calls 20 2 2) 2%nat.
Proof. split; (exists 2%nat; eexists; vm_compute; tauto). Qed.
Example C113_recursive_bytes :
  Write tree2 (after tree2 (calls 20 0 1 ++ calls 20 1 0 ++ calls 20 2 2)) forest2 = Ok [10;0;0;0; 1;0;0;0; 0;0;0;0; 6; 5] /\
  Write tree2 (after tree2 (calls 20 1 0 ++ calls 20 0 1 ++ calls 20 2 2)) forest2 = Ok [10;0;0;0; 1;0;0;0; 0;0;0;0; 6; 5].
Proof. split; vm_compute; reflexivity. Qed.
