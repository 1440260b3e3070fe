(** The bytes written depend only on the codecs of the types in the value. *)
From Coq Require Import ZArith List Bool Arith Lia Relations.
Import ListNotations.
From Verif Require Import RegModel RegSpec RegProofs FillModel FillProofs NomModel NomSpec.

Section DvInd.
Variable P : dv -> Prop.
Hypothesis HNum : forall x, P (VNum x).
Hypothesis HStr : forall l, P (VStr l).
Hypothesis HSeq : forall l, Forall P l -> P (VSeq l).
Hypothesis HNil : P VNil.
Hypothesis HRef : forall v, P v -> P (VRef v).
Hypothesis HDyn : forall t v, P v -> P (VDyn t v).
Fixpoint dv_ind2 (v : dv) : P v :=
  match v with
  | VNum x => HNum x
  | VStr l => HStr l
  | VSeq l => HSeq l ((fix go l := match l return Forall P l with [] => Forall_nil P | v :: l => Forall_cons v (dv_ind2 v) (go l) end) l)
  | VNil => HNil
  | VRef v => HRef v (dv_ind2 v)
  | VDyn t v => HDyn t v (dv_ind2 v)
  end.
End DvInd.

Section Types.
Variable T : nat -> shape.
(** ** parts *)
Lemma field_needs b fs u : In (Need u) (field_instrs b fs) -> exists tg, In (tg, u) fs /\ tg <> TgSkip.
Proof.
  revert b. induction fs as [|[tg t] fs IH]; intros b H; [destruct H|]. cbn [field_instrs] in H. destruct b; [destruct H as [H|[]]; discriminate|].
  destruct tg; cbn [In] in H; try (destruct H as [H|H]; [injection H as ->; eexists; split; [now left|discriminate]|]);
  destruct (IH _ H) as (tg' & A & B); exists tg'; (split; [now right|exact B]).
Qed.
Lemma part_contains t u : part (prog T) t u -> contains T t u.
Proof.
  unfold part, prog, contains. destruct (T t); intro H; try (destruct H as [H|[]]; injection H as ->; reflexivity); try (now destruct H). now apply (field_needs false).
Qed.

(** ** congruence *)
Variables g g' : nat -> info.
Definition agree (t : nat) : Prop := forall u, within T t u -> g u = g' u.
Definition vagree (v : dv) : Prop := forall t, holds t v -> agree t.
Lemma agree_self t : agree t -> g t = g' t.
Proof. intro A. apply A. constructor. Qed.
Lemma within_trans t u w : within T t u -> within T u w -> within T t w.
Proof. intros A B. induction B as [|x y _ IH C]; [exact A|]. now apply within_part with x. Qed.
Lemma agree_part t u : agree t -> contains T t u -> agree u.
Proof. intros A C w W. apply A. apply within_trans with u; [|exact W]. apply within_part with t; [constructor|exact C]. Qed.
Lemma vagree_ref v : vagree (VRef v) -> vagree v.
Proof. intros A t H. apply A. now constructor. Qed.
Lemma vagree_dyn t v : vagree (VDyn t v) -> agree t /\ vagree v.
Proof. intro A. split; [apply A; constructor|]. intros u H. apply A. now constructor. Qed.
Lemma vagree_in v l : vagree (VSeq l) -> In v l -> vagree v.
Proof. intros A I t H. apply A. now apply holds_seq with v. Qed.
Ltac sub A := first [exact A|apply (agree_part _ _ A); unfold contains; match goal with E : T _ = _ |- _ => rewrite E end; solve [reflexivity]].
Lemma size1_eq addr t v : agree t -> size1 T g addr t v = size1 T g' addr t v.
Proof.
  intro A. unfold size1. rewrite (agree_self t A). destruct (0 <=? i_sz (g' t))%Z; [reflexivity|]. destruct (i_get (g' t)); [|reflexivity].
  destruct (T t) eqn:E; try reflexivity. rewrite (agree_self t0); [reflexivity|]. sub A.
Qed.
Lemma count1_eq addr t v : agree t -> count1 T g addr t v = count1 T g' addr t v.
Proof. intro A. unfold count1. now rewrite (agree_self t A). Qed.
Lemma size_eq v : forall addr t, agree t -> vagree v -> size_of T g addr t v = size_of T g' addr t v.
Proof.
  induction v using dv_ind2; intros addr s A V; cbn [size_of]; destruct (T s) eqn:E; try (now apply size1_eq); try reflexivity;
  try (destruct (u_kind u); try reflexivity; now apply size1_eq).
  - apply size1_eq. sub A.
  - apply vagree_dyn in V. now apply IHv.
  - apply vagree_dyn in V. destruct (u_kind u); [reflexivity|now apply IHv|now apply size1_eq].
Qed.
Lemma count_eq v : forall addr t, agree t -> vagree v -> count_of T g addr t v = count_of T g' addr t v.
Proof.
  induction v using dv_ind2; intros addr s A V; cbn [count_of]; destruct (T s) eqn:E; try (now apply count1_eq); try reflexivity;
  try (destruct (u_kind u); try reflexivity; now apply count1_eq).
  - apply count1_eq. sub A.
  - apply vagree_dyn in V. now apply IHv.
  - apply vagree_dyn in V. destruct (u_kind u); [reflexivity|now apply IHv|now apply count1_eq].
Qed.
Lemma each_eq (f f' : dv -> out (list Z)) l : (forall v, In v l -> f v = f' v) -> each f l = each f' l.
Proof. induction l as [|v l IH]; intro H; [reflexivity|]. cbn [each]. rewrite (H v (or_introl eq_refl)), IH; [reflexivity|]. intros w W. apply H. now right. Qed.
Definition same (v : dv) : Prop := forall auto addr t, agree t -> vagree v -> wr T g auto addr t v = wr T g' auto addr t v.
Lemma wr_eq2 v : same v /\ forall t w, v = VDyn t w -> same w.
Proof.
  induction v as [x|b|l H| |v IH|u v IH] using dv_ind2; (split; [|try discriminate]); [| | | | | |intros t w W; injection W as <- <-; apply IH]; intros auto addr s A V; destruct (T s) eqn:E; cbn [wr]; rewrite ?E; try reflexivity;
  try (rewrite (count_eq _ addr s A V); reflexivity).
  - assert (EL : each (fun x : dv => match x with VNil => Ok [] | VDyn u w => wr T g false false u w | _ => Panic end) l = each (fun x : dv => match x with VNil => Ok [] | VDyn u w => wr T g' false false u w | _ => Panic end) l).
    { apply each_eq. intros x X. rewrite Forall_forall in H. destruct (H x X) as [_ HX]. pose proof (vagree_in _ _ V X) as V'. destruct x; try reflexivity. apply vagree_dyn in V'. now apply (HX t0 x eq_refl). }
    assert (EQ : each (fun x : dv => wr T g true addr t x) l = each (fun x : dv => wr T g' true addr t x) l).
    { apply each_eq. intros x X. rewrite Forall_forall in H. apply (H x X); [sub A|now apply (vagree_in x l)]. }
    rewrite EL, EQ. reflexivity.
  - assert (EL : each (fun x : dv => match x with VNil => Ok [] | VDyn u w => wr T g false false u w | _ => Panic end) l = each (fun x : dv => match x with VNil => Ok [] | VDyn u w => wr T g' false false u w | _ => Panic end) l).
    { apply each_eq. intros x X. rewrite Forall_forall in H. destruct (H x X) as [_ HX]. pose proof (vagree_in _ _ V X) as V'. destruct x; try reflexivity. apply vagree_dyn in V'. now apply (HX t0 x eq_refl). }
    assert (EQ : each (fun x : dv => wr T g true true t x) l = each (fun x : dv => wr T g' true true t x) l).
    { apply each_eq. intros x X. rewrite Forall_forall in H. apply (H x X); [sub A|now apply (vagree_in x l)]. }
    rewrite EL, EQ, (count_eq _ addr s A V). reflexivity.
  - rewrite (agree_self s A). assert (C : forall tg e, In (tg, e) fs -> tg <> TgSkip -> agree e).
    { intros tg e F N. apply (agree_part _ _ A). unfold contains. rewrite E. now exists tg. }
    assert (V' : forall x, In x l -> vagree x) by (intros x X; now apply (vagree_in x l)). clear V A E. generalize (i_keep (g' s)) as ks. intro ks. revert fs C ks. induction l as [|v l IH]; intros fs C ks; [reflexivity|].
    destruct ks as [|k ks]; [reflexivity|]. destruct fs as [|[tg e] fs]; [reflexivity|]. inversion H as [|? ? H1 H2]; subst. rewrite IH; [|exact H2|intros x X; apply V'; now right|intros tg' e' F; apply (C tg'); now right].
    destruct k; [|reflexivity]. assert (VV : vagree v) by (apply V'; now left).
    assert (X : tg <> TgSkip -> forall auto, wr T g auto addr e v = wr T g' auto addr e v) by (intros N auto'; apply H1; [apply (C tg); [now left|exact N]|exact VV]).
    assert (XS : tg <> TgSkip -> size_of T g addr e v = size_of T g' addr e v) by (intro N; apply size_eq; [apply (C tg); [now left|exact N]|exact VV]).
    assert (XC : tg <> TgSkip -> count_of T g addr e v = count_of T g' addr e v) by (intro N; apply count_eq; [apply (C tg); [now left|exact N]|exact VV]).
    destruct tg; [reflexivity|..]; rewrite ?X, ?XS, ?XC by discriminate; reflexivity.
  - apply IH; [sub A|now apply vagree_ref].
  - apply vagree_dyn in V. now apply IH.
Qed.
Lemma wr_eq v auto addr t : agree t -> vagree v -> wr T g auto addr t v = wr T g' auto addr t v.
Proof. apply wr_eq2. Qed.
Lemma Write_eq2 v : (vagree v -> Write T g v = Write T g' v) /\ forall l, v = VSeq l -> forall x, In x l -> vagree x -> Write T g x = Write T g' x.
Proof.
  induction v as [x|b|l H| |v IH|t v IH] using dv_ind2; (split; [|try discriminate]); try reflexivity.
  - intros l' L x X. injection L as <-. rewrite Forall_forall in H. now apply (H x X).
  - intro V. pose proof V as V0. apply vagree_dyn in V. destruct V as [V1 V2]. cbn [Write]. rewrite (wr_eq v true false t V1 V2). destruct (T t) as [| | |e| | | | |] eqn:E; try reflexivity.
    destruct (T e) eqn:E2; try reflexivity. destruct v as [| |l| | |]; try reflexivity. f_equal. apply each_eq. intros x X. destruct IH as [_ IH]. apply (IH l eq_refl x X). now apply (vagree_in x l).
Qed.
Lemma Write_eq v : vagree v -> Write T g v = Write T g' v.
Proof. apply Write_eq2. Qed.
Lemma WriteTail_eq v : vagree v -> WriteTail T g v = WriteTail T g' v.
Proof.
  destruct v as [| | | | |t v]; try reflexivity. intro V. pose proof (vagree_dyn _ _ V) as [V1 V2]. cbn [WriteTail]. rewrite (wr_eq v false false t V1 V2). destruct (T t) as [| | |e| | | | |] eqn:E; try reflexivity.
  destruct (T e) eqn:E2; try reflexivity. destruct v as [| |l| | |]; try reflexivity. apply each_eq. intros x X. apply Write_eq. now apply (vagree_in x l).
Qed.
End Types.

