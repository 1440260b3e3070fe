(** The timer heap represents a heap-ordered tree. *)
From Coq Require Import ZArith List Bool Arith Lia Permutation.
Import ListNotations.
From Verif Require Import TimerModel.
Open Scope Z_scope.

(** a tree of (cell index, Expirator, deadline) *)
Inductive tree := Node (i x : nat) (e : Z) (cs : list tree).
Definition root (t : tree) : nat := let (i, _, _, _) := t in i.
Definition key (t : tree) : Z := let (_, _, e, _) := t in e.
Definition kids (t : tree) : list tree := let (_, _, _, cs) := t in cs.

Section TreeInd.
Variable Q : tree -> Prop.
Hypothesis H : forall i x e cs, Forall Q cs -> Q (Node i x e cs).
Fixpoint tree_ind' (t : tree) : Q t :=
  match t with
  | Node i x e cs => H i x e cs ((fix go (l : list tree) : Forall Q l :=
      match l with [] => Forall_nil _ | t :: l => Forall_cons _ (tree_ind' t) (go l) end) cs)
  end.
End TreeInd.

Definition ent := (nat * nat * Z)%type.
Fixpoint ents (t : tree) : list ent :=
  match t with Node i x e cs => (i, x, e) :: flat_map ents cs end.
Definition eidx (a : ent) : nat := fst (fst a).
Definition idx (t : tree) : list nat := map eidx (ents t).
Definition idxs (l : list tree) : list nat := map eidx (flat_map ents l).
Fixpoint height (t : tree) : nat :=
  match t with Node _ _ _ cs => S (fold_right (fun t n => Nat.max (height t) n) 0%nat cs) end.

Definition pad (l : list nat) : list nat := l ++ repeat 0%nat (4 - length l).

Fixpoint rep (c : nat -> item) (t : tree) : Prop :=
  match t with
  | Node i x e cs =>
      ix (c i) = Some x /\ ie (c i) = e /\ idl (c i) = length cs /\ idn (c i) = pad (map root cs) /\
      (length cs <= 4)%nat /\
      (fix reps (k : Z) (l : list tree) : Prop :=
         match l with
         | [] => True
         | t :: l => iup (c (root t)) = i /\ iupi (c (root t)) = k /\ rep c t /\ reps (k + 1) l
         end) 0 cs
  end.
Fixpoint reps (c : nat -> item) (i : nat) (k : Z) (l : list tree) : Prop :=
  match l with
  | [] => True
  | t :: l => iup (c (root t)) = i /\ iupi (c (root t)) = k /\ rep c t /\ reps c i (k + 1) l
  end.
Lemma rep_eq c i x e cs : rep c (Node i x e cs) <->
  ix (c i) = Some x /\ ie (c i) = e /\ idl (c i) = length cs /\ idn (c i) = pad (map root cs) /\
      (length cs <= 4)%nat /\ reps c i 0 cs.
Proof.
  assert (E : forall k, (fix reps (k : Z) (l : list tree) : Prop :=
         match l with
         | [] => True
         | t :: l => iup (c (root t)) = i /\ iupi (c (root t)) = k /\ rep c t /\ reps (k + 1) l
         end) k cs <-> reps c i k cs).
  { induction cs as [|t cs IH]; intros k; simpl; [tauto|]. rewrite IH. tauto. }
  cbn [rep]. rewrite E. tauto.
Qed.

(** heap order *)
Fixpoint ord (t : tree) : Prop :=
  match t with
  | Node i x e cs => (fix go (l : list tree) : Prop :=
      match l with [] => True | t :: l => e <= key t /\ ord t /\ go l end) cs
  end.
Lemma ord_eq i x e cs : ord (Node i x e cs) <-> Forall (fun t => e <= key t /\ ord t) cs.
Proof.
  cbn [ord]. induction cs as [|t cs IH]; [split; auto|].
  rewrite IH. split.
  - intros (A & B & C). constructor; auto.
  - intros F. inversion F; tauto.
Qed.

Lemma root_in t : In (root t) (idx t).
Proof. destruct t; simpl; auto. Qed.
Lemma idx_node i x e cs : idx (Node i x e cs) = i :: idxs cs.
Proof. reflexivity. Qed.
Lemma idxs_cons t l : idxs (t :: l) = idx t ++ idxs l.
Proof. unfold idxs, idx. simpl. apply map_app. Qed.
Lemma idxs_app a b : idxs (a ++ b) = idxs a ++ idxs b.
Proof. unfold idxs. rewrite flat_map_app. apply map_app. Qed.
Lemma in_idxs t l j : In t l -> In j (idx t) -> In j (idxs l).
Proof. intros A B. apply in_split in A. destruct A as (x & y & ->). rewrite idxs_app, idxs_cons. apply in_or_app. right. apply in_or_app; auto. Qed.

Lemma ord_ents t : ord t -> Forall (fun a => key t <= snd a) (ents t).
Proof.
  induction t as [i x e cs IH] using tree_ind'. rewrite ord_eq. intros F. simpl. constructor; [simpl; lia|].
  apply Forall_forall. intros a I. apply in_flat_map in I. destruct I as (t & I & J).
  rewrite Forall_forall in IH, F. specialize (IH t I). specialize (F t I). destruct F as [F1 F2].
  specialize (IH F2). rewrite Forall_forall in IH. specialize (IH a J). simpl. lia.
Qed.
Lemma key_in t : exists x, In (root t, x, key t) (ents t).
Proof. destruct t; simpl; eauto. Qed.

Lemma height_kid t l : In t l -> (height t <= fold_right (fun t n => Nat.max (height t) n) 0%nat l)%nat.
Proof. induction l as [|a l IH]; simpl; [tauto|]. intros [->|I]; [lia|]. specialize (IH I). lia. Qed.
Lemma height_idx t : (height t <= length (idx t))%nat.
Proof.
  induction t as [i x e cs IH] using tree_ind'. rewrite idx_node. simpl. apply le_n_S.
  induction cs as [|t cs IHc]; simpl; [lia|]. inversion IH; subst. specialize (IHc H2).
  rewrite idxs_cons, app_length. lia.
Qed.

(** Frame: a representation only depends on the cells of the tree, and not on the root's links. *)
Definition core_eq (a b : item) : Prop := ix a = ix b /\ ie a = ie b /\ idl a = idl b /\ idn a = idn b.
Lemma core_refl a : core_eq a a. Proof. repeat split. Qed.
Lemma rep_ext c c' t : (forall j, In j (idx t) -> c' j = c j) -> rep c t -> rep c' t.
Proof.
  induction t as [i x e cs IH] using tree_ind'. intros E. rewrite !rep_eq.
  rewrite (E i) by (simpl; auto). intros (A & B & C & D & G & K). repeat (split; auto).
  assert (E' : forall j, In j (idxs cs) -> c' j = c j) by (intros; apply E; simpl; auto).
  clear - IH E' K. revert K. generalize 0. induction cs as [|t cs IHc]; intros k; simpl; auto.
  inversion IH; subst. intros (A & B & C & D).
  rewrite idxs_cons in E'.
  rewrite (E' (root t)) by (apply in_or_app; left; apply root_in).
  repeat (split; auto).
  - apply H1; auto. intros; apply E'; apply in_or_app; auto.
  - apply IHc; auto. intros; apply E'; apply in_or_app; auto.
Qed.
Lemma reps_ext c c' i k l : (forall j, In j (idxs l) -> c' j = c j) -> reps c i k l -> reps c' i k l.
Proof.
  revert k. induction l as [|t l IH]; intros k E; simpl; auto. rewrite idxs_cons in E. intros (A & B & C & D).
  rewrite (E (root t)) by (apply in_or_app; left; apply root_in).
  repeat (split; auto).
  - eapply rep_ext; [|eauto]. intros; apply E; apply in_or_app; auto.
  - apply IH; auto. intros; apply E; apply in_or_app; auto.
Qed.
Lemma rep_root c c' t : ~ In (root t) (idxs (kids t)) -> core_eq (c' (root t)) (c (root t)) ->
  (forall j, In j (idxs (kids t)) -> c' j = c j) -> rep c t -> rep c' t.
Proof.
  destruct t as [i x e cs]. cbn [root kids]. intros N (K1 & K2 & K3 & K4) E. rewrite !rep_eq.
  rewrite K1, K2, K3, K4. intros (A & B & C & D & G & K). repeat (split; auto).
  eapply reps_ext; eauto.
Qed.
Lemma reps_app c i k a b : reps c i k (a ++ b) <-> reps c i k a /\ reps c i (k + Z.of_nat (length a)) b.
Proof.
  revert k. induction a as [|t a IH]; intros k.
  - simpl. rewrite Z.add_0_r. tauto.
  - cbn [app reps length]. rewrite IH. replace (k + 1 + Z.of_nat (length a)) with (k + Z.of_nat (S (length a))) by lia. tauto.
Qed.
Lemma reps_in c i k l t : reps c i k l -> In t l -> rep c t /\ iup (c (root t)) = i.
Proof.
  revert k. induction l as [|a l IH]; intros k; simpl; [tauto|]. intros (A & B & C & D) [->|I]; eauto.
Qed.

(** the small sorts *)
Lemma sort4_map {A B} (f : A -> B) (k : A -> Z) a b c d :
  sort4_arr (f a, k a) (f b, k b) (f c, k c) (f d, k d) = map f (sort4_arr (a, k a) (b, k b) (c, k c) (d, k d)).
Proof.
  unfold sort4_arr; simpl. repeat (match goal with |- context [if ?x <? ?y then _ else _] => destruct (x <? y) end; simpl; auto).
Qed.
Lemma sort3_map {A B} (f : A -> B) (k : A -> Z) a b c :
  sort3_arr (f a, k a) (f b, k b) (f c, k c) = map f (sort3_arr (a, k a) (b, k b) (c, k c)).
Proof.
  unfold sort3_arr; simpl. repeat (match goal with |- context [if ?x <? ?y then _ else _] => destruct (x <? y) end; simpl; auto).
Qed.
Ltac perm4 := repeat first [apply perm_skip | apply perm_nil].
Lemma sort4_spec {A} (k : A -> Z) a b c d : exists p q r s,
  sort4_arr (a, k a) (b, k b) (c, k c) (d, k d) = [p; q; r; s] /\ Permutation [p; q; r; s] [a; b; c; d] /\
  k p <= k q /\ k q <= k r /\ k r <= k s.
Proof.
  unfold sort4_arr; simpl.
  repeat (match goal with |- context [if ?x <? ?y then _ else _] => destruct (Z.ltb_spec x y) end; simpl);
  (eexists _, _, _, _; split; [reflexivity|]; split; [|lia]);
  repeat match goal with
  | |- Permutation (?x :: ?l) (?x :: ?m) => apply perm_skip
  | |- Permutation [] [] => constructor
  | |- Permutation (?x :: ?l) (?y :: ?x :: ?m) => apply (Permutation_trans (l' := x :: y :: m)); [apply perm_skip|apply perm_swap]
  | |- Permutation (?x :: ?l) (?y :: ?z :: ?x :: ?m) => apply (Permutation_trans (l' := x :: y :: z :: m)); [apply perm_skip|apply (Permutation_middle [y; z] m x)]
  | |- Permutation (?x :: ?l) (?y :: ?z :: ?w :: ?x :: ?m) => apply (Permutation_trans (l' := x :: y :: z :: w :: m)); [apply perm_skip|apply (Permutation_middle [y; z; w] m x)]
  end.
Qed.
Lemma sort3_spec {A} (k : A -> Z) a b c : exists p q r,
  sort3_arr (a, k a) (b, k b) (c, k c) = [p; q; r] /\ Permutation [p; q; r] [a; b; c] /\ k p <= k q /\ k q <= k r.
Proof.
  unfold sort3_arr; simpl.
  repeat (match goal with |- context [if ?x <? ?y then _ else _] => destruct (Z.ltb_spec x y) end; simpl);
  (eexists _, _, _; split; [reflexivity|]; split; [|lia]);
  repeat match goal with
  | |- Permutation (?x :: ?l) (?x :: ?m) => apply perm_skip
  | |- Permutation [] [] => constructor
  | |- Permutation (?x :: ?l) (?y :: ?x :: ?m) => apply (Permutation_trans (l' := x :: y :: m)); [apply perm_skip|apply perm_swap]
  | |- Permutation (?x :: ?l) (?y :: ?z :: ?x :: ?m) => apply (Permutation_trans (l' := x :: y :: z :: m)); [apply perm_skip|apply (Permutation_middle [y; z] m x)]
  end.
Qed.

(** Access to cells. *)
Lemma get_ok h i : (i < hlen h)%nat -> get h i = Some (cells h i).
Proof. intros L. unfold get. apply Nat.ltb_lt in L. rewrite L. reflexivity. Qed.
Lemma put_ok h i v : (i < hlen h)%nat -> put h i v = Some (set_cells h (fupd (cells h) i v)).
Proof. intros L. unfold put. apply Nat.ltb_lt in L. rewrite L. reflexivity. Qed.
Lemma fupd_eq {A} (f : nat -> A) i v : fupd f i v i = v.
Proof. unfold fupd. rewrite Nat.eqb_refl. reflexivity. Qed.
Lemma fupd_ne {A} (f : nat -> A) i v j : j <> i -> fupd f i v j = f j.
Proof. intros N. unfold fupd. apply Nat.eqb_neq in N. rewrite N. reflexivity. Qed.
Lemma cells_set h c : cells (set_cells h c) = c. Proof. reflexivity. Qed.
Lemma hlen_set h c : hlen (set_cells h c) = hlen h. Proof. reflexivity. Qed.

Definition shape (h h' : heap) : Prop :=
  hlen h' = hlen h /\ size h' = size h /\ top h' = top h /\ free h' = free h /\ ti h' = ti h.
Lemma shape_refl h : shape h h. Proof. repeat split. Qed.
Lemma shape_set h c : shape h (set_cells h c). Proof. repeat split. Qed.
Lemma shape_trans a b c : shape a b -> shape b c -> shape a c.
Proof. unfold shape. intuition congruence. Qed.

(** What putUnder must do. *)
Definition PU (pu : heap -> nat -> nat -> option heap) (n : nat) : Prop :=
  forall h ta td, (height ta <= n)%nat -> rep (cells h) ta -> rep (cells h) td -> ord ta -> ord td ->
    key ta <= key td -> NoDup (idx ta ++ idx td) -> (forall j, In j (idx ta ++ idx td) -> (j < hlen h)%nat) ->
    exists h' t', pu h (root ta) (root td) = Some h' /\ shape h h' /\ root t' = root ta /\ key t' = key ta /\
      rep (cells h') t' /\ ord t' /\ Permutation (ents t') (ents ta ++ ents td) /\
      (forall j, ~ In j (idx ta ++ idx td) -> cells h' j = cells h j) /\
      iup (cells h' (root ta)) = iup (cells h (root ta)) /\ iupi (cells h' (root ta)) = iupi (cells h (root ta)).

Lemma perm_idx t l : Permutation (ents t) l -> Permutation (idx t) (map eidx l).
Proof. apply Permutation_map. Qed.
Lemma NoDup_app_l {A} (a b : list A) : NoDup (a ++ b) -> NoDup a.
Proof. induction a; simpl; [constructor|]. intros N. inversion N; subst. constructor; auto. intros I; apply H1; apply in_or_app; auto. Qed.
Lemma NoDup_app_r {A} (a b : list A) : NoDup (a ++ b) -> NoDup b.
Proof. induction a; simpl; auto. intros N. inversion N; subst. auto. Qed.
Lemma NoDup_app_d {A} (a b : list A) x : NoDup (a ++ b) -> In x a -> In x b -> False.
Proof. induction a; simpl; [tauto|]. intros N [->|I] J; inversion N; subst; [apply H1; apply in_or_app; auto|eauto]. Qed.
Lemma rep_rootfree c c' t : NoDup (idx t) -> core_eq (c' (root t)) (c (root t)) ->
  (forall j, In j (idx t) -> j <> root t -> c' j = c j) -> rep c t -> rep c' t.
Proof.
  intros N K E R. destruct t as [i x e cs]. rewrite idx_node in *. cbn [root] in *. inversion N; subst.
  eapply rep_root; eauto. intros j I. cbn [kids] in I. apply E; simpl; auto. intros ->; auto.
Qed.

(** The height bound of the result is not needed: only the first argument's height matters. *)
Lemma sort4_ok pu n h at_ t0 t1 t2 t3 :
  PU pu n -> Forall (fun t => height t <= n)%nat [t0; t1; t2; t3] ->
  idn (cells h at_) = map root [t0; t1; t2; t3] ->
  Forall (rep (cells h)) [t0; t1; t2; t3] -> Forall ord [t0; t1; t2; t3] ->
  NoDup (at_ :: idxs [t0; t1; t2; t3]) ->
  (forall j, In j (at_ :: idxs [t0; t1; t2; t3]) -> (j < hlen h)%nat) ->
  exists h' t' arr, sort4 pu h at_ = Some h' /\ shape h h' /\ rep (cells h') t' /\ ord t' /\
    Permutation (ents t') (flat_map ents [t0; t1; t2; t3]) /\
    In (root t') (map root [t0; t1; t2; t3]) /\
    cells h' at_ = with_dn (cells h at_) (root t' :: arr) /\ length arr = 3%nat /\
    (forall j, ~ In j (at_ :: idxs [t0; t1; t2; t3]) -> cells h' j = cells h j) /\
    iup (cells h' (root t')) = iup (cells h (root t')).
Proof.
  intros P Hh D R O N L.
  destruct (sort4_spec key t0 t1 t2 t3) as (p & q & r & s & E & Pm & K1 & K2 & K3).
  assert (Rk : forall t, rep (cells h) t -> ie (cells h (root t)) = key t).
  { intros [i x e cs] Z. rewrite rep_eq in Z. simpl. tauto. }
  assert (Rs := R). repeat rewrite Forall_cons_iff in Rs. destruct Rs as (R0 & R1 & R2 & R3 & _).
  assert (Hin : forall t, In t [t0; t1; t2; t3] -> (root t < hlen h)%nat).
  { intros t I. apply L. right. eapply in_idxs; eauto using root_in. }
  unfold sort4. rewrite (get_ok h at_) by (apply L; left; auto). cbn [bind].
  unfold dnth. rewrite D. cbn [map nth].
  rewrite !get_ok by (apply Hin; simpl; tauto). cbn [bind].
  rewrite !Rk by auto. rewrite sort4_map, E. cbn [map nth].
  rewrite put_ok by (apply L; left; auto). cbn [bind].
  set (h1 := set_cells h (fupd (cells h) at_ _)).
  assert (Pi : Permutation (idxs [p; q; r; s]) (idxs [t0; t1; t2; t3])).
  { apply Permutation_map. rewrite !flat_map_concat_map.
    clear - Pm. remember [p;q;r;s] as u. remember [t0;t1;t2;t3] as v. clear Hequ Heqv.
    induction Pm; simpl; auto. - apply Permutation_app_head; auto.
    - rewrite !app_assoc. apply Permutation_app_tail. apply Permutation_app_comm.
    - eapply perm_trans; eauto. }
  assert (Pe : Permutation (flat_map ents [p; q; r; s]) (flat_map ents [t0; t1; t2; t3])).
  { rewrite !flat_map_concat_map.
    clear - Pm. remember [p;q;r;s] as u. remember [t0;t1;t2;t3] as v. clear Hequ Heqv.
    induction Pm; simpl; auto. - apply Permutation_app_head; auto.
    - rewrite !app_assoc. apply Permutation_app_tail. apply Permutation_app_comm.
    - eapply perm_trans; eauto. }
  assert (Fo : forall Q : tree -> Prop, Forall Q [t0; t1; t2; t3] -> Forall Q [p; q; r; s]).
  { intros Q F. eapply Permutation_Forall; [|exact F]. apply Permutation_sym; auto. }
  inversion N as [|? ? Nat_ N']; subst.
  assert (N2 : NoDup (idxs [p; q; r; s])) by (eapply Permutation_NoDup; [apply Permutation_sym; apply Pi|auto]).
  assert (Na : ~ In at_ (idxs [p; q; r; s])).
  { intros I. apply Nat_. eapply Permutation_in; eauto. }
  assert (L2 : forall j, In j (idxs [p; q; r; s]) -> (j < hlen h)%nat).
  { intros j I. apply L. right. eapply Permutation_in; eauto. }
  apply Fo in Hh. apply Fo in R. apply Fo in O.
  repeat rewrite Forall_cons_iff in Hh. repeat rewrite Forall_cons_iff in R. repeat rewrite Forall_cons_iff in O.
  destruct Hh as (Hp & Hq & Hr & Hs & _). destruct R as (Rp & Rq & Rr & Rs & _). destruct O as (Op & Oq & Or & Os & _).
  assert (C1 : forall j, j <> at_ -> cells h1 j = cells h j).
  { intros j I. unfold h1. rewrite cells_set. apply fupd_ne; auto. }
  assert (Ex : forall t, In t [p; q; r; s] -> rep (cells h) t -> rep (cells h1) t).
  { intros t I. apply rep_ext. intros j J. apply C1. intros ->. apply Na. eapply in_idxs; eauto. }
  apply Ex in Rp; [|simpl; tauto]. apply Ex in Rq; [|simpl; tauto].
  apply Ex in Rr; [|simpl; tauto]. apply Ex in Rs; [|simpl; tauto].
  repeat rewrite idxs_cons in *. change (idxs []) with (@nil nat) in *. rewrite app_nil_r in *. repeat rewrite app_nil_r in Pi.
  (* first: r, s *)
  destruct (P h1 r s) as (h2 & u & E2 & S2 & T2 & Y2 & R2' & O2 & P2 & F2 & U2 & V2); auto.
  { apply NoDup_app_r in N2. apply NoDup_app_r in N2. auto. }
  { intros j I. apply L2. apply in_or_app; right; apply in_or_app; right; auto. }
  rewrite E2. cbn [bind]. rewrite <- T2.
  assert (Iu : Permutation (idx u) (idx r ++ idx s)).
  { unfold idx. rewrite <- map_app. apply Permutation_map; auto. }
  assert (Nq : NoDup (idx q ++ idx u)).
  { apply NoDup_app_r in N2. eapply Permutation_NoDup; [|exact N2]. apply Permutation_app_head. apply Permutation_sym; auto. }
  destruct (P h2 q u) as (h3 & v & E3 & S3 & T3 & Y3 & R3' & O3 & P3 & F3 & U3 & V3); auto.
  { eapply rep_ext; [|exact Rq]. intros j I. apply F2. intros J. apply NoDup_app_r in N2.
    eapply NoDup_app_d; [exact N2|exact I|auto]. }
  { lia. }
  { intros j I. destruct S2 as (S2 & _). rewrite S2. apply L2. apply in_or_app; right.
    apply in_app_or in I. apply in_or_app. destruct I as [I|I]; auto. right. eapply Permutation_in; eauto. }
  rewrite E3. cbn [bind]. rewrite <- T3.
  assert (Iv : Permutation (idx v) (idx q ++ idx r ++ idx s)).
  { eapply perm_trans; [apply perm_idx; exact P3|]. rewrite map_app. fold (idx q) (idx u). apply Permutation_app_head; auto. }
  assert (Np : NoDup (idx p ++ idx v)).
  { eapply Permutation_NoDup; [|exact N2]. apply Permutation_app_head. apply Permutation_sym; auto. }
  assert (F3' : forall j, ~ In j (idx q ++ idx r ++ idx s) -> cells h3 j = cells h1 j).
  { intros j I. rewrite F3, F2; auto.
    - intros J; apply I; apply in_or_app; auto.
    - intros J; apply I. apply in_app_or in J. apply in_or_app. destruct J as [J|J]; auto. right. eapply Permutation_in; eauto. }
  destruct (P h3 p v) as (h4 & w & E4 & S4 & T4 & Y4 & R4 & O4 & P4 & F4 & U4 & V4); auto.
  { eapply rep_ext; [|exact Rp]. intros j I. apply F3'. intros J. eapply NoDup_app_d; [exact N2|exact I|auto]. }
  { lia. }
  { intros j I. destruct S2 as (S2 & _). destruct S3 as (S3 & _). rewrite S3, S2. apply L2.
    apply in_app_or in I. apply in_or_app. destruct I as [I|I]; auto. right. eapply Permutation_in; eauto. }
  assert (F4' : forall j, ~ In j (idx p ++ idx q ++ idx r ++ idx s) -> cells h4 j = cells h1 j).
  { intros j I. rewrite F4, F3'; auto.
    - intros J; apply I; apply in_or_app; auto.
    - intros J; apply I. apply in_app_or in J. apply in_or_app. destruct J as [J|J]; auto. right. eapply Permutation_in; eauto. }
  exists h4, w, (map root [q; r; s]).
  split; [exact E4|]. split.
  { eapply shape_trans; [|exact S4]. eapply shape_trans; [|exact S3]. eapply shape_trans; [|exact S2]. apply shape_set. }
  split; auto. split; auto.
  split.
  { eapply perm_trans; [exact P4|]. eapply perm_trans; [|exact Pe]. cbn [flat_map]. rewrite app_nil_r.
    apply Permutation_app_head. eapply perm_trans; [exact P3|]. apply Permutation_app_head. auto. }
  split.
  { rewrite T4. assert (I : In p [t0; t1; t2; t3]) by (eapply Permutation_in; [exact Pm|simpl; auto]). exact (in_map root _ _ I). }
  split.
  { rewrite F4' by auto. unfold h1. rewrite cells_set, fupd_eq, T4. reflexivity. }
  split; auto.
  split.
  { intros j I. rewrite F4'.
    - apply C1. intros ->. apply I; left; auto.
    - intros J. apply I. right. eapply Permutation_in; eauto. }
  { rewrite T4, U4, F3'.
    - rewrite C1; auto. intros Q. apply Na. rewrite <- Q. apply in_or_app; left; apply root_in.
    - intros J. eapply NoDup_app_d; [exact N2|apply root_in|exact J]. }
Qed.

Lemma rep_key c t : rep c t -> ie (c (root t)) = key t.
Proof. destruct t as [i x e cs]. rewrite rep_eq. simpl. tauto. Qed.
Lemma set_nth_pad l v : (length l < 4)%nat -> set_nth (pad l) (length l) v = pad (l ++ [v]).
Proof. intros L. destruct l as [|a [|b [|c [|d l]]]]; simpl in *; try reflexivity; lia. Qed.
Lemma ord_snoc l t e : Forall (fun t => e <= key t /\ ord t) l -> e <= key t -> ord t ->
  Forall (fun t => e <= key t /\ ord t) (l ++ [t]).
Proof. intros A B C. apply Forall_app. auto. Qed.

Lemma fupd2 {A} (f : nat -> A) i v w j : fupd (fupd f i v) i w j = fupd f i w j.
Proof. unfold fupd. destruct (Nat.eqb j i); auto. Qed.

Lemma put_under_ok fuel : PU (put_under fuel) fuel.
Proof.
  induction fuel as [|fuel IH]; intros h ta td Hh Ra Rd Oa Od K N L.
  { destruct ta; simpl in Hh; lia. }
  destruct ta as [a x e cs]. destruct td as [d y f ds].
  set (td := Node d y f ds) in *.
  assert (La : (a < hlen h)%nat) by (apply L; simpl; auto).
  assert (Ld : (d < hlen h)%nat) by (apply L; apply in_or_app; right; simpl; auto).
  rewrite idx_node in N, L.
  assert (Nad : a <> d).
  { intros ->. inversion N; subst. apply H1. apply in_or_app. right. simpl; auto. }
  pose proof (proj1 (rep_eq _ _ _ _ _) Ra) as (A1 & A2 & A3 & A4 & A5 & A6).
  pose proof (proj1 (ord_eq _ _ _ _) Oa) as Oc.
  change (root (Node a x e cs)) with a. change (root td) with d. change (key (Node a x e cs)) with e in *.
  cbn [put_under]. rewrite (get_ok h a), (get_ok h d) by auto. cbn [bind].
  rewrite put_ok by auto. cbn [bind].
  set (h1 := set_cells h (fupd (cells h) d (with_up (cells h d) a))).
  rewrite (get_ok h1 a) by auto. cbn [bind].
  assert (C1 : forall j, j <> d -> cells h1 j = cells h j) by (intros j I; unfold h1; rewrite cells_set; apply fupd_ne; auto).
  assert (Cd : cells h1 d = with_up (cells h d) a) by (unfold h1; rewrite cells_set, fupd_eq; auto).
  assert (Nc : ~ In d (idxs cs)).
  { inversion N; subst. intros I. eapply (NoDup_app_d (idxs cs)); [exact H2|exact I|simpl; auto]. }
  assert (Na : ~ In a (idxs cs ++ idx td)) by (inversion N; auto).
  assert (Nd : NoDup (idx td)) by (inversion N; subst; eapply NoDup_app_r; eauto).
  assert (Ncd : NoDup (idxs cs ++ idx td)) by (inversion N; auto).
  assert (Rd1 : rep (cells h1) td).
  { eapply rep_rootfree; [auto| | |exact Rd].
    - change (root td) with d. rewrite Cd. repeat split.
    - intros j _ J. apply C1; auto. }
  rewrite (C1 a) by auto. rewrite A3.
  destruct (Nat.eqb_spec (length cs) 4) as [E4|E4].
  - (* four children *)
    destruct cs as [|t0 [|t1 [|t2 [|t3 [|? ?]]]]]; try discriminate E4. clear E4 A5.
    destruct (sort4_ok (put_under fuel) fuel h1 a t0 t1 t2 t3) as
      (h2 & t' & arr & E2 & S2 & R2 & O2 & P2 & I2 & D2 & La2 & F2 & U2); auto.
    { apply Forall_forall. intros t I. pose proof (height_kid t _ I). cbn [height] in Hh. lia. }
    { rewrite C1 by auto. rewrite A4. reflexivity. }
    { apply Forall_forall. intros t I. pose proof (reps_in _ _ _ _ _ A6 I) as [Q _].
      eapply rep_ext; [|exact Q]. intros j J. apply C1. intros ->. apply Nc. eapply in_idxs; eauto. }
    { eapply Forall_impl; [|exact Oc]. intros t [_ Q]; auto. }
    { constructor. - intros I. apply Na. apply in_or_app; auto. - eapply NoDup_app_l; eauto. }
    { intros j I. apply L. destruct I as [<-|I]; [left; auto|right; apply in_or_app; auto]. }
    set (cs := [t0; t1; t2; t3]) in *.
    rewrite E2. cbn [bind].
    assert (S2' : hlen h2 = hlen h) by (destruct S2 as (S2 & _); exact S2).
    rewrite (get_ok h2 a) by lia. cbn [bind].
    rewrite put_ok by lia. cbn [bind].
    assert (Pt : Permutation (idx t') (idxs cs)) by (apply Permutation_map; auto).
    assert (Lt : (root t' < hlen h)%nat).
    { apply L. right. apply in_or_app. left. eapply Permutation_in; [exact Pt|apply root_in]. }
    assert (Ntd : ~ In (root t') (idx td)).
    { intros J. eapply (NoDup_app_d (idxs cs) (idx td)); [exact Ncd| |exact J].
      eapply Permutation_in; [exact Pt|apply root_in]. }
    assert (Nta : ~ In a (idx t')).
    { intros J. apply Na. apply in_or_app. left. eapply Permutation_in; eauto. }
    assert (Nta' : root t' <> a) by (intros Q; apply Nta; rewrite <- Q; apply root_in).
    assert (Ntd' : root t' <> d) by (intros Q; apply Ntd; rewrite Q; simpl; auto).
    assert (DN : dnth (cells h2 a) 0 = root t') by (rewrite D2; reflexivity).
    rewrite DN.
    rewrite (get_ok _ (root t')) by (simpl; lia). cbn [bind].
    rewrite put_ok by (simpl; lia). cbn [bind].
    rewrite (get_ok _ d) by (simpl; lia). cbn [bind].
    rewrite put_ok by (simpl; lia). cbn [bind].
    rewrite (get_ok _ a) by (simpl; lia). cbn [bind].
    rewrite put_ok by (simpl; lia).
    match goal with |- exists h' t', Some ?H = _ /\ _ => set (h6 := H) end.
    assert (Ca : cells h6 a = mkIt (Some x) e (iupi (cells h a)) 2 (iup (cells h a)) [root t'; d; 0; 0]%nat).
    { unfold h6. rewrite !cells_set, fupd_eq. rewrite !fupd_ne, fupd_eq by auto. rewrite D2.
      rewrite !C1 by auto. destruct arr as [|? [|? [|? [|? ?]]]]; try discriminate La2.
      unfold with_dl, with_dn. simpl. rewrite A1, A2. reflexivity. }
    assert (Ct : cells h6 (root t') = with_upi (cells h2 (root t')) 0).
    { unfold h6. rewrite !cells_set. rewrite (fupd_ne _ a) by auto. rewrite (fupd_ne _ d) by auto. rewrite fupd_eq.
      rewrite fupd_ne by auto. reflexivity. }
    assert (Cd6 : cells h6 d = with_upi (cells h2 d) 1).
    { unfold h6. rewrite !cells_set. rewrite (fupd_ne _ a) by auto. rewrite fupd_eq.
      rewrite fupd_ne by auto. rewrite fupd_ne by auto. reflexivity. }
    assert (C6 : forall j, j <> a -> j <> d -> j <> root t' -> cells h6 j = cells h2 j).
    { intros j J1 J2 J3. unfold h6. rewrite !cells_set. rewrite !fupd_ne by auto. reflexivity. }
    exists h6, (Node a x e [t'; td]). split; auto. split.
    { eapply shape_trans; [apply (shape_set h)|]. eapply shape_trans; [exact S2|]. unfold h6. repeat split. }
    split; auto. split; auto. split; [|split; [|split; [|split]]].
    + rewrite rep_eq. rewrite Ca. cbn [ix ie idl idn length map reps]. change (root td) with d.
      split; auto. split; auto. split; auto. split; auto. split; [lia|].
      rewrite Ct, Cd6. cbn [iup iupi with_upi].
      split; [|split; [reflexivity|split; [|split; [|split; [reflexivity|split; [|auto]]]]]].
      * rewrite U2. rewrite C1 by auto. apply in_map_iff in I2. destruct I2 as (t & Q & I).
        rewrite <- Q. apply (reps_in _ _ _ _ _ A6 I).
      * eapply rep_rootfree; [| | |exact R2].
        -- eapply Permutation_NoDup; [apply Permutation_sym; exact Pt|]. eapply NoDup_app_l; eauto.
        -- rewrite Ct. repeat split.
        -- intros j J J'. apply C6; auto; intros ->; auto.
           apply Nc. eapply Permutation_in; eauto.
      * rewrite F2.
        -- rewrite Cd. reflexivity.
        -- intros [I|I]; auto.
      * eapply rep_rootfree; [auto| | |eapply rep_ext; [|exact Rd1]].
        -- change (root td) with d. rewrite Cd6. repeat split.
        -- change (root td) with d. intros j J J'. apply C6; auto; intros ->; auto.
           apply Na. apply in_or_app; auto.
        -- intros j J. apply F2. intros [I|I].
           ++ subst j. apply Na. apply in_or_app; auto.
           ++ eapply NoDup_app_d; [exact Ncd|exact I|exact J].
    + rewrite ord_eq. constructor; [|constructor; auto]. split; auto.
      pose proof (key_in t') as (z & I). assert (J := Permutation_in _ P2 I).
      apply in_flat_map in J. destruct J as (t & J1 & J2).
      rewrite Forall_forall in Oc. destruct (Oc t J1) as [Q1 Q2]. apply ord_ents in Q2.
      rewrite Forall_forall in Q2. specialize (Q2 _ J2). simpl in Q2. lia.
    + cbn [ents flat_map]. apply perm_skip. cbn [app]. rewrite app_nil_r. apply Permutation_app_tail. exact P2.
    + intros j J. rewrite C6.
      * rewrite F2.
        -- apply C1. intros ->. apply J. right. apply in_or_app. right. simpl; auto.
        -- intros [I|I]; apply J; [left; auto|right; apply in_or_app; auto].
      * intros ->. apply J. left; auto.
      * intros ->. apply J. right. apply in_or_app. right. simpl; auto.
      * intros ->. apply J. right. apply in_or_app. left. eapply Permutation_in; [exact Pt|apply root_in].
    + rewrite Ca. split; reflexivity.
  - assert (A5' : (length cs < 4)%nat) by lia.
    unfold check. rewrite (proj2 (Nat.ltb_lt _ _) A5'). cbn [bind].
    rewrite put_ok by auto. cbn [bind].
    rewrite (get_ok _ d) by auto. cbn [bind].
    rewrite put_ok by auto. cbn [bind].
    rewrite (get_ok _ a) by auto. cbn [bind].
    rewrite put_ok by auto.
    match goal with |- exists h' t', Some ?H = _ /\ _ => set (h6 := H) end.
    assert (Ca : cells h6 a = mkIt (Some x) e (iupi (cells h a)) (S (length cs)) (iup (cells h a)) (pad (map root (cs ++ [td])))).
    { unfold h6. rewrite !cells_set, fupd_eq. rewrite !fupd_ne, fupd_eq by auto.
      unfold with_dl, with_dn. cbn [ix ie iupi idl iup idn]. rewrite A1, A2, A3, A4.
      rewrite map_app. cbn [map]. change (root td) with d.
      rewrite <- set_nth_pad by (rewrite map_length; auto). rewrite map_length. reflexivity. }
    assert (Cd6 : cells h6 d = with_upi (cells h1 d) (Z.of_nat (length cs))).
    { unfold h6. rewrite !cells_set. rewrite (fupd_ne _ a) by auto. rewrite fupd_eq.
      rewrite fupd_ne by auto. reflexivity. }
    assert (C6 : forall j, j <> a -> j <> d -> cells h6 j = cells h j).
    { intros j J1 J2. unfold h6. rewrite !cells_set. rewrite !fupd_ne by auto. apply C1; auto. }
    exists h6, (Node a x e (cs ++ [td])). split; auto. split; [unfold h6, h1; repeat split|].
    split; auto. split; auto. split; [|split; [|split; [|split]]].
    + rewrite rep_eq. rewrite Ca. cbn [ix ie idl idn]. rewrite app_length. cbn [length].
      split; auto. split; auto. split; [lia|]. split; auto. split; [lia|].
      rewrite reps_app. split.
      * eapply reps_ext; [|exact A6]. intros j J. apply C6; intros ->; auto.
        apply Na; apply in_or_app; auto.
      * cbn [reps]. change (root td) with d. rewrite Cd6, Cd. cbn [iup iupi with_upi with_up]. split; auto. split; auto. split; auto.
        eapply rep_rootfree; [auto| | |exact Rd1].
        -- change (root td) with d. rewrite Cd6. repeat split.
        -- intros j J J'. rewrite C6, C1; auto. intros ->. apply Na. apply in_or_app; auto.
    + rewrite ord_eq. apply ord_snoc; auto.
    + cbn [ents]. rewrite flat_map_app. cbn [flat_map]. rewrite app_nil_r. reflexivity.
    + intros j J. apply C6.
      * intros ->. apply J. left; auto.
      * intros ->. apply J. right. apply in_or_app. right. simpl; auto.
    + rewrite Ca. split; reflexivity.
Qed.

(** putUnder on a real heap: the fuel is enough *)
Lemma seq_len (l : list nat) n : NoDup l -> (forall j, In j l -> (j < n)%nat) -> (length l <= n)%nat.
Proof.
  intros N L. rewrite <- (seq_length n 0). apply NoDup_incl_length; auto.
  intros j I. apply in_seq. specialize (L j I). lia.
Qed.
Lemma put_under_ok' h ta td : rep (cells h) ta -> rep (cells h) td -> ord ta -> ord td ->
    key ta <= key td -> NoDup (idx ta ++ idx td) -> (forall j, In j (idx ta ++ idx td) -> (j < hlen h)%nat) ->
    exists h' t', put_under' h (root ta) (root td) = Some h' /\ shape h h' /\ root t' = root ta /\ key t' = key ta /\
      rep (cells h') t' /\ ord t' /\ Permutation (ents t') (ents ta ++ ents td) /\
      (forall j, ~ In j (idx ta ++ idx td) -> cells h' j = cells h j) /\
      iup (cells h' (root ta)) = iup (cells h (root ta)) /\ iupi (cells h' (root ta)) = iupi (cells h (root ta)).
Proof.
  intros. apply put_under_ok; auto.
  pose proof (height_idx ta). apply NoDup_app_l in H4.
  pose proof (seq_len _ (hlen h) H4) as Q. assert (length (idx ta) <= hlen h)%nat by (apply Q; intros; apply H5; apply in_or_app; auto).
  lia.
Qed.
Lemma put_under_PU n : PU put_under' n.
Proof. intros h ta td _. apply put_under_ok'. Qed.

Lemma perm_flat (l m : list tree) : Permutation l m -> Permutation (flat_map ents l) (flat_map ents m).
Proof.
  induction 1; simpl; auto.
  - apply Permutation_app_head; auto.
  - rewrite !app_assoc. apply Permutation_app_tail. apply Permutation_app_comm.
  - eapply perm_trans; eauto.
Qed.

Lemma merge_ok h at_ x e cs : rep (cells h) (Node at_ x e cs) -> cs <> [] -> Forall ord cs ->
  NoDup (at_ :: idxs cs) -> (forall j, In j (at_ :: idxs cs) -> (j < hlen h)%nat) ->
  exists h' t', merge h at_ = Some (h', root t') /\ shape h h' /\ rep (cells h') t' /\ ord t' /\
    Permutation (ents t') (flat_map ents cs) /\
    (forall j, ~ In j (at_ :: idxs cs) -> cells h' j = cells h j) /\
    iup (cells h' at_) = iup (cells h at_) /\ iupi (cells h' at_) = iupi (cells h at_).
Proof.
  intros R NE O N L.
  pose proof (proj1 (rep_eq _ _ _ _ _) R) as (A1 & A2 & A3 & A4 & A5 & A6).
  assert (Lat : (at_ < hlen h)%nat) by (apply L; left; auto).
  assert (Lk : forall t, In t cs -> (root t < hlen h)%nat).
  { intros t I. apply L. right. eapply in_idxs; eauto using root_in. }
  inversion N as [|? ? Na Nc]; subst.
  assert (Rk : forall t, In t cs -> rep (cells h) t) by (intros t I; apply (reps_in _ _ _ _ _ A6 I)).
  assert (Kk : forall t, In t cs -> ie (cells h (root t)) = key t) by (intros t I; apply rep_key; auto).
  unfold merge. rewrite (get_ok h at_) by auto. cbn [bind]. rewrite A3.
  unfold dnth. rewrite A4.
  destruct cs as [|t0 [|t1 [|t2 [|t3 [|t4 cs]]]]]; [congruence| | | | |simpl in A5; lia]; cbn [length map nth pad app].
  - (* one *)
    exists h, t0. split; auto. split; [apply shape_refl|]. split; [apply Rk; simpl; auto|].
    split; [inversion O; auto|]. split; [simpl; rewrite app_nil_r; reflexivity|]. auto.
  - (* two *)
    inversion O as [|? ? O0 O']; subst. inversion O' as [|? ? O1 _]; subst.
    rewrite (get_ok h (root t0)), (get_ok h (root t1)) by (apply Lk; simpl; auto). cbn [bind].
    rewrite !Kk by (simpl; auto).
    rewrite !idxs_cons in Nc. change (idxs []) with (@nil nat) in Nc. rewrite app_nil_r in Nc.
    assert (Li : forall j, In j (idx t0 ++ idx t1) -> In j (at_ :: idxs [t0; t1])).
    { intros j J. right. rewrite !idxs_cons. change (idxs []) with (@nil nat). rewrite app_nil_r. auto. }
    assert (Na' : ~ In at_ (idx t0 ++ idx t1)).
    { intros J. apply Na. rewrite !idxs_cons. change (idxs []) with (@nil nat). rewrite app_nil_r. auto. }
    destruct (Z.leb_spec (key t0) (key t1)).
    + destruct (put_under_ok' h t0 t1) as (h' & t' & E & S & T & Y & R' & O2 & P & F & _); auto.
      * apply Rk; simpl; auto. * apply Rk; simpl; auto.
      * rewrite E. cbn [bind]. exists h', t'. rewrite T. split; auto. split; auto. split; auto. split; auto.
        split; [cbn [flat_map]; rewrite app_nil_r; auto|].
        split; [intros j J; apply F; auto|]. rewrite F by auto. auto.
    + destruct (put_under_ok' h t1 t0) as (h' & t' & E & S & T & Y & R' & O2 & P & F & _); auto.
      * apply Rk; simpl; auto. * apply Rk; simpl; auto. * lia.
      * eapply Permutation_NoDup; [|exact Nc]. apply Permutation_app_comm.
      * intros j J. apply L. apply Li. apply in_or_app. apply in_app_or in J. tauto.
      * rewrite E. cbn [bind]. exists h', t'. rewrite T. split; auto. split; auto. split; auto. split; auto.
        split; [cbn [flat_map]; rewrite app_nil_r; eapply perm_trans; [exact P|apply Permutation_app_comm]|].
        assert (F' : forall j, ~ In j (idx t0 ++ idx t1) -> cells h' j = cells h j).
        { intros j J. apply F. intros Q. apply J. apply in_or_app. apply in_app_or in Q. tauto. }
        split; [intros j J; apply F'; auto|]. rewrite F' by auto. auto.
  - (* three *)
    rewrite (get_ok h (root t0)), (get_ok h (root t1)), (get_ok h (root t2)) by (apply Lk; simpl; auto). cbn [bind].
    rewrite !Kk by (simpl; auto).
    destruct (sort3_spec key t0 t1 t2) as (p & q & r & E & Pm & K1 & K2).
    rewrite sort3_map, E. cbn [map nth].
    rewrite put_ok by auto. cbn [bind].
    set (h1 := set_cells h _).
    assert (C1 : forall j, j <> at_ -> cells h1 j = cells h j).
    { intros j J. unfold h1. rewrite cells_set. apply fupd_ne; auto. }
    assert (U1 : iup (cells h1 at_) = iup (cells h at_) /\ iupi (cells h1 at_) = iupi (cells h at_)).
    { unfold h1. rewrite cells_set, fupd_eq. auto. }
    pose proof (perm_flat _ _ Pm) as Pe.
    assert (Pi : Permutation (idx p ++ idx q ++ idx r) (idxs [t0; t1; t2])).
    { eapply perm_trans; [|apply (Permutation_map eidx); exact Pe]. cbn [flat_map]. rewrite !map_app. cbn [map]. rewrite app_nil_r. reflexivity. }
    assert (N2 : NoDup (idx p ++ idx q ++ idx r)) by (eapply Permutation_NoDup; [apply Permutation_sym; exact Pi|auto]).
    assert (Na2 : ~ In at_ (idx p ++ idx q ++ idx r)) by (intros J; apply Na; eapply Permutation_in; eauto).
    assert (L2 : forall j, In j (idx p ++ idx q ++ idx r) -> (j < hlen h)%nat).
    { intros j J. apply L. right. eapply Permutation_in; eauto. }
    assert (Fo : forall t, In t [p; q; r] -> rep (cells h1) t /\ ord t).
    { intros t I. assert (I' := Permutation_in _ Pm I). split.
      - eapply rep_ext; [|apply Rk; exact I']. intros j J. apply C1. intros ->. apply Na. eapply in_idxs; eauto.
      - rewrite Forall_forall in O. auto. }
    destruct (Fo p) as [Rp Op]; [simpl; auto|]. destruct (Fo q) as [Rq Oq]; [simpl; auto|]. destruct (Fo r) as [Rr Or]; [simpl; auto|].
    destruct (put_under_ok' h1 q r) as (h2 & u & E2 & S2 & T2 & Y2 & R2 & O2 & P2 & F2 & _); auto.
    { eapply NoDup_app_r; eauto. }
    { intros j J. apply L2. apply in_or_app. auto. }
    rewrite E2. cbn [bind]. rewrite <- T2.
    assert (Iu : Permutation (idx u) (idx q ++ idx r)).
    { unfold idx. rewrite <- map_app. apply Permutation_map; auto. }
    destruct (put_under_ok' h2 p u) as (h3 & w & E3 & S3 & T3 & Y3 & R3 & O3 & P3 & F3 & _); auto.
    { eapply rep_ext; [|exact Rp]. intros j J. apply F2. intros Q. eapply NoDup_app_d; eauto. }
    { lia. }
    { eapply Permutation_NoDup; [|exact N2]. apply Permutation_app_head. apply Permutation_sym; auto. }
    { intros j J. destruct S2 as (S2 & _). rewrite S2. apply L2. apply in_app_or in J. apply in_or_app.
      destruct J as [J|J]; auto. right. eapply Permutation_in; eauto. }
    assert (F3' : forall j, ~ In j (idx p ++ idx q ++ idx r) -> cells h3 j = cells h1 j).
    { intros j J. rewrite F3, F2; auto.
      - intros Q; apply J; apply in_or_app; auto.
      - intros Q; apply J; apply in_app_or in Q; apply in_or_app; destruct Q as [Q|Q]; auto. right. eapply Permutation_in; eauto. }
    rewrite E3. cbn [bind]. rewrite <- T3. exists h3, w. split; auto. split.
    { eapply shape_trans; [|exact S3]. eapply shape_trans; [|exact S2]. apply shape_set. }
    split; auto. split; auto. split.
    { eapply perm_trans; [exact P3|]. eapply perm_trans; [|exact Pe]. cbn [flat_map]. rewrite app_nil_r. apply Permutation_app_head. auto. }
    split.
    { intros j J. rewrite F3'.
      - apply C1. intros ->. apply J; left; auto.
      - intros Q. apply J. right. eapply Permutation_in; eauto. }
    rewrite F3' by auto. auto.
  - (* four *)
    destruct (sort4_ok put_under' (fold_right (fun t n => Nat.max (height t) n) 0%nat [t0; t1; t2; t3]) h at_ t0 t1 t2 t3) as
      (h2 & t' & arr & E2 & S2 & R2 & O2 & P2 & I2 & D2 & La2 & F2 & U2); auto.
    { apply put_under_PU. }
    { apply Forall_forall. intros t I. apply height_kid; auto. }
    { apply Forall_forall. auto. }
    rewrite E2. cbn [bind]. rewrite (get_ok h2 at_) by (destruct S2 as (S2 & _); rewrite S2; auto). cbn [bind].
    rewrite D2. cbn [idn with_dn nth]. exists h2, t'. split; auto. split; auto. split; auto. split; auto. split; auto. split; auto.
    rewrite D2. auto.
Qed.

(** shifting the children of a parent *)
Lemma pad_nth l k : nth k (pad l) 0%nat = nth k l 0%nat.
Proof.
  unfold pad. destruct (Nat.lt_ge_cases k (length l)).
  - apply app_nth1; auto.
  - rewrite app_nth2 by auto. rewrite (nth_overflow l) by auto.
    generalize (4 - length l)%nat (k - length l)%nat. intros n m. revert m. induction n; intros [|m]; simpl; auto.
Qed.
Lemma shift1_ok h u k v : u <> 0%nat -> (u < hlen h)%nat -> (v < hlen h)%nat -> v <> u -> (k < 3)%nat ->
  length (idn (cells h u)) = 4%nat -> nth (S k) (idn (cells h u)) 0%nat = v ->
  shift1 h u k = Some (set_cells h (fupd (fupd (cells h) u (with_dn (cells h u) (set_nth (idn (cells h u)) k v))) v
                        (with_upi (cells h v) ((iupi (cells h v) - 1) mod 2 ^ 16)))).
Proof.
  intros U Lu Lv N K Ln E. unfold shift1, dn_get, dn_set, dec_upi.
  rewrite get_ok by auto. cbn [bind]. unfold dnth. rewrite E.
  unfold check. assert (K4 : (k < 4)%nat) by lia. rewrite (proj2 (Nat.ltb_lt _ _) K4). cbn [bind].
  rewrite put_ok by auto. cbn [bind]. rewrite get_ok by auto. cbn [bind].
  rewrite cells_set, fupd_eq. cbn [idn with_dn].
  assert (E' : nth (S k) (set_nth (idn (cells h u)) k v) 0%nat = v).
  { destruct (idn (cells h u)) as [|a [|b [|c [|d [|? ?]]]]]; try discriminate Ln.
    destruct k as [|[|[|k]]]; [| | |lia]; simpl in *; auto. }
  rewrite E'. rewrite get_ok by auto. cbn [bind]. rewrite put_ok by auto.
  rewrite cells_set. rewrite (fupd_ne _ u) by auto. reflexivity.
Qed.

Definition decd (it : item) : item := with_upi it ((iupi it - 1) mod 2 ^ 16).
Lemma shift1_ok2 h u k v : u <> 0%nat -> (u < hlen h)%nat -> (v < hlen h)%nat -> v <> u -> (k < 3)%nat ->
  length (idn (cells h u)) = 4%nat -> nth (S k) (idn (cells h u)) 0%nat = v ->
  exists h', shift1 h u k = Some h' /\ shape h h' /\ cells h' u = with_dn (cells h u) (set_nth (idn (cells h u)) k v) /\
    cells h' v = decd (cells h v) /\ (forall j, j <> u -> j <> v -> cells h' j = cells h j).
Proof.
  intros. eexists. split; [apply shift1_ok; eassumption|]. split; [apply shape_set|].
  rewrite !cells_set. split; [|split].
  - rewrite fupd_ne, fupd_eq by auto. reflexivity.
  - rewrite fupd_eq. reflexivity.
  - intros. rewrite !fupd_ne by auto. reflexivity.
Qed.
Lemma dn_set_ok h u k v : (u < hlen h)%nat -> (k < 4)%nat ->
  dn_set h u k v = Some (set_cells h (fupd (cells h) u (with_dn (cells h u) (set_nth (idn (cells h u)) k v)))).
Proof.
  intros L K. unfold dn_set. rewrite get_ok by auto. cbn [bind]. unfold check. rewrite (proj2 (Nat.ltb_lt _ _) K). cbn [bind].
  apply put_ok; auto.
Qed.

Lemma shift_children_ok h u a b c d k : u <> 0%nat -> (u < hlen h)%nat ->
  idn (cells h u) = [a; b; c; d] -> (forall j, In j [a; b; c; d] -> (j < hlen h)%nat /\ j <> u) ->
  (b <> 0%nat -> b <> c /\ b <> d) -> (c <> 0%nat -> c <> d) -> (k < 4)%nat ->
  exists h', shift_children h u (Z.of_nat k) = Some h' /\ shape h h' /\
    cells h' u = with_dn (cells h u) (firstn k [a; b; c; d] ++ skipn (S k) [a; b; c; d] ++ [0%nat]) /\
    (forall j, j <> 0%nat -> In j (skipn (S k) [a; b; c; d]) -> cells h' j = decd (cells h j)) /\
    (forall j, j <> 0%nat -> j <> u -> ~ In j (skipn (S k) [a; b; c; d]) -> cells h' j = cells h j).
Proof.
  intros U Lu D All Nb Nc K.
  destruct (All b) as [Lb Ub]; [simpl; auto|]. destruct (All c) as [Lc Uc]; [simpl; auto|]. destruct (All d) as [Ld Ud]; [simpl; auto|].
  assert (K' : k = 0%nat \/ k = 1%nat \/ k = 2%nat \/ k = 3%nat) by lia.
  destruct K' as [->|[->|[->| ->]]]; unfold shift_children.
  - replace (Z.of_nat 0 =? 0) with true by reflexivity.
    destruct (shift1_ok2 h u 0 b) as (h1 & E1 & S1 & V1 & W1 & F1); auto; try lia; try (rewrite D; reflexivity).
    rewrite E1. cbn [bind]. destruct S1 as (L1 & S1). rewrite D in V1. cbn [set_nth] in V1.
    destruct (shift1_ok2 h1 u 1 c) as (h2 & E2 & S2 & V2 & W2 & F2); auto; try lia; try (rewrite V1; reflexivity).
    rewrite E2. cbn [bind]. destruct S2 as (L2 & S2). rewrite V1 in V2. cbn [set_nth with_dn idn] in V2.
    destruct (shift1_ok2 h2 u 2 d) as (h3 & E3 & S3 & V3 & W3 & F3); auto; try lia; try (rewrite V2; reflexivity).
    rewrite E3. cbn [bind]. destruct S3 as (L3 & S3). rewrite V2 in V3. cbn [set_nth with_dn idn] in V3.
    rewrite dn_set_ok by lia. eexists. split; [reflexivity|].
    split; [unfold shape in *; simpl; intuition congruence|].
    rewrite cells_set, fupd_eq, V3. split; [reflexivity|].
    split.
    + intros j J I. simpl in I. assert (j <> u) by (destruct I as [<-|[<-|[<-|[]]]]; auto).
      rewrite fupd_ne by auto.
      destruct (Nat.eq_dec j d) as [->|Nd].
      { rewrite W3. destruct (Nat.eq_dec d c) as [->|]; [exfalso; apply Nc; auto|]. rewrite F2 by auto.
        destruct (Nat.eq_dec d b) as [->|]; [exfalso; destruct Nb as [Nb1 Nb2]; auto|]. rewrite F1 by auto. reflexivity. }
      rewrite F3 by auto. destruct (Nat.eq_dec j c) as [->|Nc'].
      { rewrite W2. destruct (Nat.eq_dec c b) as [->|]; [exfalso; destruct Nb as [Nb1 Nb2]; auto|]. rewrite F1 by auto. reflexivity. }
      rewrite F2 by auto. destruct I as [<-|[<-|[<-|[]]]]; try congruence. 
    + intros j J Ju I. simpl in I. rewrite fupd_ne by auto. rewrite F3, F2, F1; auto; intros ->; tauto.
  - replace (Z.of_nat 1 =? 0) with false by reflexivity. replace (Z.of_nat 1 =? 1) with true by reflexivity.
    destruct (shift1_ok2 h u 1 c) as (h2 & E2 & S2 & V2 & W2 & F2); auto; try lia; try (rewrite D; reflexivity).
    rewrite E2. cbn [bind]. destruct S2 as (L2 & S2). rewrite D in V2. cbn [set_nth with_dn idn] in V2.
    destruct (shift1_ok2 h2 u 2 d) as (h3 & E3 & S3 & V3 & W3 & F3); auto; try lia; try (rewrite V2; reflexivity).
    rewrite E3. cbn [bind]. destruct S3 as (L3 & S3). rewrite V2 in V3. cbn [set_nth with_dn idn] in V3.
    rewrite dn_set_ok by lia. eexists. split; [reflexivity|].
    split; [unfold shape in *; simpl; intuition congruence|].
    rewrite cells_set, fupd_eq, V3. split; [reflexivity|].
    split.
    + intros j J I. simpl in I. assert (j <> u) by (destruct I as [<-|[<-|[]]]; auto).
      rewrite fupd_ne by auto.
      destruct (Nat.eq_dec j d) as [->|Nd].
      { rewrite W3. destruct (Nat.eq_dec d c) as [->|]; [exfalso; apply Nc; auto|]. rewrite F2 by auto. reflexivity. }
      rewrite F3 by auto. destruct I as [<-|[<-|[]]]; try congruence.
    + intros j J Ju I. simpl in I. rewrite fupd_ne by auto. rewrite F3, F2; auto; intros ->; tauto.
  - replace (Z.of_nat 2 =? 0) with false by reflexivity. replace (Z.of_nat 2 =? 1) with false by reflexivity.
    replace (Z.of_nat 2 =? 2) with true by reflexivity.
    destruct (shift1_ok2 h u 2 d) as (h3 & E3 & S3 & V3 & W3 & F3); auto; try lia; try (rewrite D; reflexivity).
    rewrite E3. cbn [bind]. destruct S3 as (L3 & S3). rewrite D in V3. cbn [set_nth with_dn idn] in V3.
    rewrite dn_set_ok by lia. eexists. split; [reflexivity|].
    split; [unfold shape in *; simpl; intuition congruence|].
    rewrite cells_set, fupd_eq, V3. split; [reflexivity|].
    split.
    + intros j J I. simpl in I. assert (j <> u) by (destruct I as [<-|[]]; auto).
      rewrite fupd_ne by auto. destruct I as [<-|[]]. auto.
    + intros j J Ju I. simpl in I. rewrite fupd_ne by auto. rewrite F3; auto; intros ->; tauto.
  - replace (Z.of_nat 3 =? 0) with false by reflexivity. replace (Z.of_nat 3 =? 1) with false by reflexivity.
    replace (Z.of_nat 3 =? 2) with false by reflexivity. replace (Z.of_nat 3 =? 3) with true by reflexivity.
    rewrite dn_set_ok by lia. eexists. split; [reflexivity|].
    split; [repeat split|].
    rewrite cells_set, fupd_eq, D. split; [reflexivity|].
    split.
    + intros j J [].
    + intros j J Ju I. rewrite fupd_ne by auto. reflexivity.
Qed.

(** decrementing the position of every tree of a list *)
Lemma reps_dec c c' i k l : 0 < k -> k + Z.of_nat (length l) < 2 ^ 16 -> NoDup (idxs l) -> reps c i k l ->
  (forall t, In t l -> c' (root t) = decd (c (root t))) ->
  (forall j, In j (idxs l) -> ~ In j (map root l) -> c' j = c j) -> reps c' i (k - 1) l.
Proof.
  revert k. induction l as [|t l IH]; intros k K B N R E F; simpl; auto.
  cbn [reps] in R. destruct R as (R1 & R2 & R3 & R4). rewrite idxs_cons in *.
  rewrite (E t) by (left; auto). cbn [decd with_upi iup iupi]. split; auto. split; [|split].
  - rewrite R2. apply Z.mod_small. lia.
  - eapply rep_rootfree; [eapply NoDup_app_l; eauto| | |exact R3].
    + rewrite (E t) by (left; auto). repeat split.
    + intros j J J'. apply F; [apply in_or_app; auto|]. intros [Q|Q]; [congruence|].
      apply in_map_iff in Q. destruct Q as (t' & Q & I). eapply NoDup_app_d; [exact N|exact J|].
      eapply in_idxs; [exact I|]. rewrite <- Q. apply root_in.
  - replace (k + 1 - 1) with (k - 1 + 1) by lia. replace (k - 1 + 1) with ((k + 1) - 1) by lia. apply IH; auto.
    + lia.
    + cbn [length] in B. lia.
    + eapply NoDup_app_r; eauto.
    + intros t' I. apply E. right; auto.
    + intros j J J'. apply F; [apply in_or_app; auto|]. intros [Q|Q]; auto. subst j.
      eapply NoDup_app_d; [exact N|apply root_in|exact J].
Qed.

Lemma pad4 l : (length l <= 4)%nat -> exists a b c d, pad l = [a; b; c; d].
Proof. intros L. destruct l as [|a [|b [|c [|d [|? l]]]]]; simpl in L; try lia; unfold pad; simpl; eauto 10. Qed.
Lemma pad_distinct l a b c d : NoDup l -> ~ In 0%nat l -> (length l <= 4)%nat -> pad l = [a; b; c; d] ->
  (b <> 0%nat -> b <> c /\ b <> d) /\ (c <> 0%nat -> c <> d).
Proof.
  intros N Z L E. destruct l as [|p [|q [|r [|s [|? l]]]]]; simpl in L; try lia; unfold pad in E; simpl in E; injection E; intros; subst; simpl in Z;
  repeat match goal with H : NoDup (_ :: _) |- _ => inversion H; clear H; subst end; simpl in *; intuition congruence.
Qed.
Lemma in_pad l j : In j (pad l) -> j = 0%nat \/ In j l.
Proof. unfold pad. intros I. apply in_app_or in I. destruct I as [I|I]; auto. apply repeat_spec in I. auto. Qed.
Lemma firstn_mid {A} (a : list A) b c : firstn (length a) (a ++ b :: c) = a.
Proof. rewrite firstn_app, firstn_all, Nat.sub_diag. simpl. apply app_nil_r. Qed.
Lemma skipn_mid {A} (a : list A) b c : skipn (S (length a)) (a ++ b :: c) = c.
Proof. induction a; simpl; auto. Qed.
Lemma repeat_snoc n : repeat 0%nat n ++ [0%nat] = repeat 0%nat (S n).
Proof. induction n; simpl; auto. rewrite IHn. reflexivity. Qed.
Lemma set_nth_mid a b c v : set_nth (a ++ b :: c) (length a) v = a ++ v :: c.
Proof. induction a; simpl; auto. rewrite IHa. reflexivity. Qed.
Lemma NoDup_mid {A} (a b c : list A) : NoDup (a ++ b ++ c) -> NoDup (a ++ c).
Proof.
  intros N. apply NoDup_app_r with (a := b). eapply Permutation_NoDup; [|exact N].
  rewrite !app_assoc. apply Permutation_app_tail. apply Permutation_app_comm.
Qed.
Lemma roots_in l j : In j (map root l) -> In j (idxs l).
Proof. intros I. apply in_map_iff in I. destruct I as (t & <- & I). eapply in_idxs; eauto using root_in. Qed.
Lemma roots_nodup l : NoDup (idxs l) -> NoDup (map root l).
Proof.
  induction l as [|t l IH]; simpl; [constructor|]. rewrite idxs_cons. intros N. constructor.
  - intros I. eapply NoDup_app_d; [exact N|apply root_in|apply roots_in; auto].
  - apply IH. eapply NoDup_app_r; eauto.
Qed.

Definition detach_post (h : heap) (T : tree) (i : nat) : Prop :=
  exists h' T' x e, detach h i = Some h' /\ shape h h' /\ root T' = root T /\ key T' = key T /\ rep (cells h') T' /\ ord T' /\
    Permutation (ents T) ((i, x, e) :: ents T') /\
    (forall j, ~ In j (idx T) -> j <> 0%nat -> cells h' j = cells h j) /\
    iup (cells h' (root T)) = iup (cells h (root T)) /\ iupi (cells h' (root T)) = iupi (cells h (root T)).

Lemma detach_kid h r x e l1 t l2 : let T := Node r x e (l1 ++ t :: l2) in
  rep (cells h) T -> ord T -> NoDup (idx T) -> (forall j, In j (idx T) -> (j < hlen h)%nat) ->
  ~ In 0%nat (idx T) -> top h <> root t -> detach_post h T (root t).
Proof.
  intros T R O N L Z Tp. unfold T in *. rewrite idx_node in *.
  pose proof (proj1 (rep_eq _ _ _ _ _) R) as (A1 & A2 & A3 & A4 & A5 & A6).
  pose proof (proj1 (ord_eq _ _ _ _) O) as Oc.
  apply Forall_app in Oc. destruct Oc as [Oc1 Oc2]. apply Forall_cons_iff in Oc2; destruct Oc2 as [Ot Oc3].
  apply reps_app in A6. destruct A6 as [B1 B2]. cbn [reps] in B2. destruct B2 as (B2 & B3 & B4 & B5).
  rewrite Z.add_0_l in *.
  destruct t as [i y f ci]. cbn [root] in *.
  set (t := Node i y f ci) in *.
  rewrite idxs_app, idxs_cons in *.
  pose proof (proj1 (NoDup_cons_iff _ _) N) as [Nr Nk].
  pose proof (proj1 (rep_eq _ _ _ _ _) B4) as (D1 & D2 & D3 & D4 & D5 & D6).
  assert (It : In i (idx t)) by (left; auto).
  assert (Ii : In i (idxs l1 ++ idx t ++ idxs l2)) by (apply in_or_app; right; apply in_or_app; auto).
  assert (Li : (i < hlen h)%nat) by (apply L; right; auto).
  assert (Lr : (r < hlen h)%nat) by (apply L; left; auto).
  assert (Nri : r <> i) by (intros ->; auto).
  assert (R0 : r <> 0%nat) by (intros ->; apply Z; left; auto).
  assert (I0 : i <> 0%nat) by (intros ->; apply Z; right; auto).
  rewrite app_length in A5. cbn [length] in A5.
  unfold detach_post. change (root (Node r x e (l1 ++ t :: l2))) with r. change (key (Node r x e (l1 ++ t :: l2))) with e.
  rewrite idx_node, idxs_app, idxs_cons.
  unfold detach. rewrite get_ok by auto. cbn [bind]. rewrite D3.
  destruct (Nat.eqb_spec (length ci) 0) as [E0|E0].
  - (* leaf *)
    destruct ci; [|discriminate E0]. clear E0.
    rewrite (proj2 (Nat.eqb_neq i (top h))) by auto.
    rewrite B2, B3.
    assert (Lroots : (length (map root (l1 ++ t :: l2)) <= 4)%nat) by (rewrite map_length, app_length; cbn [length]; lia).
    destruct (pad4 _ Lroots) as (a & b & c & d & Pd).
    assert (Hroots : forall j, In j (map root (l1 ++ t :: l2)) -> In j (idxs l1 ++ idx t ++ idxs l2)).
    { intros j J. apply roots_in in J. rewrite idxs_app, idxs_cons in J. auto. }
    destruct (pad_distinct (map root (l1 ++ t :: l2)) a b c d) as [Q1 Q2]; auto.
    { apply roots_nodup. rewrite idxs_app, idxs_cons. auto. }
    { intros J. apply Z. right. auto. }
    destruct (shift_children_ok h r a b c d (length l1)) as (h1 & E1 & S1 & V1 & W1 & F1); auto.
    { congruence. }
    { intros j J. rewrite <- Pd in J. apply in_pad in J. destruct J as [->|J].
      - split; [lia|auto]. - apply Hroots in J. split; [apply L; right; auto|]. intros ->. auto. }
    { lia. }
    rewrite E1. cbn [bind]. destruct S1 as (S1 & S1').
    rewrite get_ok by lia. cbn [bind]. rewrite put_ok by lia.
    rewrite <- Pd in *.
    assert (SK : skipn (S (length l1)) (pad (map root (l1 ++ t :: l2))) = map root l2 ++ repeat 0%nat (4 - length (map root (l1 ++ t :: l2)))).
    { unfold pad. rewrite map_app at 1. rewrite <- app_assoc. cbn [map app]. rewrite <- (map_length root l1) at 1. apply skipn_mid. }
    assert (FK : firstn (length l1) (pad (map root (l1 ++ t :: l2))) = map root l1).
    { unfold pad. rewrite map_app at 1. rewrite <- app_assoc. cbn [map app]. rewrite <- (map_length root l1) at 1. apply firstn_mid. }
    rewrite SK in *. rewrite FK in V1.
    eexists _, (Node r x e (l1 ++ l2)), y, f. split; [reflexivity|].
    split; [unfold shape in *; simpl; intuition congruence|].
    split; auto. split; auto. rewrite cells_set.
    match goal with |- rep ?c _ /\ _ => set (c2 := c) end.
    assert (C2r : c2 r = with_dl (cells h1 r) (pred (idl (cells h1 r)))) by apply fupd_eq.
    assert (C2 : forall j, j <> r -> c2 j = cells h1 j).
    { intros j J. apply fupd_ne; auto. }
    split; [|split; [|split; [|split]]].
    + rewrite rep_eq. rewrite C2r. cbn [ix ie idl idn with_dl]. rewrite V1. cbn [ix ie idl idn with_dn].
      rewrite A3, !app_length. cbn [length].
      split; auto. split; auto. split; [lia|]. split.
      { rewrite <- app_assoc, repeat_snoc. unfold pad. rewrite !map_app, <- app_assoc.
        f_equal. f_equal. f_equal. rewrite !app_length. cbn [map length]. rewrite !map_length. lia. }
      split; [lia|].
      apply reps_app. rewrite Z.add_0_l. split.
      * eapply reps_ext; [|exact B1]. intros j J.
        assert (j <> r) by (intros ->; apply Nr; apply in_or_app; auto).
        assert (j <> 0%nat) by (intros ->; apply Z; right; apply in_or_app; auto).
        rewrite C2 by auto. apply F1; auto. intros I. apply in_app_or in I. destruct I as [I|I].
        -- apply roots_in in I. eapply (NoDup_app_d (idxs l1)); [exact Nk|exact J|apply in_or_app; auto].
        -- apply repeat_spec in I. auto.
      * assert (N2 : NoDup (idxs l2)) by (apply NoDup_app_r in Nk; apply NoDup_app_r in Nk; auto).
        assert (NZ2 : forall j, In j (idxs l2) -> j <> r /\ j <> 0%nat).
        { intros j J. split; intros ->; [apply Nr|apply Z; right]; apply in_or_app; right; apply in_or_app; auto. }
        replace (Z.of_nat (length l1)) with ((Z.of_nat (length l1) + 1) - 1) by lia.
        eapply reps_dec; [lia|lia|exact N2|exact B5| |].
        -- intros t' I. assert (J : In (root t') (idxs l2)) by (eapply in_idxs; eauto using root_in).
           destruct (NZ2 _ J). rewrite C2 by auto. apply W1; auto. apply in_or_app. left. apply in_map; auto.
        -- intros j J J'. destruct (NZ2 _ J). rewrite C2 by auto. apply F1; auto.
           intros I. apply in_app_or in I. destruct I as [I|I]; auto. apply repeat_spec in I. auto.
    + rewrite ord_eq. apply Forall_app. auto.
    + cbn [ents]. rewrite !flat_map_app. cbn [flat_map]. unfold t. cbn [ents flat_map app].
      eapply perm_trans; [|apply perm_swap]. apply perm_skip.
      apply Permutation_sym. apply Permutation_middle.
    + intros j J J0.
      assert (j <> r) by (intros ->; apply J; left; auto). rewrite C2 by auto. apply F1; auto.
      intros I. apply in_app_or in I. destruct I as [I|I].
      * apply J. right. apply roots_in in I. apply in_or_app; right; apply in_or_app; auto.
      * apply repeat_spec in I; auto.
    + rewrite C2r. cbn [iup iupi with_dl]. rewrite V1. auto.
  - (* inner node *)
    pose proof (proj1 (ord_eq _ _ _ _) (proj2 Ot)) as Oci.
    assert (Nt : NoDup (idx t)) by (apply NoDup_app_r in Nk; apply NoDup_app_l in Nk; auto).
    destruct (merge_ok h i y f ci) as (h1 & t' & E1 & S1 & R1 & O1 & P1 & F1 & U1 & V1); auto.
    { intros ->. apply E0. reflexivity. }
    { eapply Forall_impl; [|exact Oci]. simpl. tauto. }
    { intros j J. apply L. right. apply in_or_app; right; apply in_or_app; auto. }
    rewrite E1. cbn [bind]. unfold relink.
    destruct S1 as (S1 & S1z & S1t & S1').
    rewrite S1t. rewrite (proj2 (Nat.eqb_neq i (top h))) by auto.
    rewrite get_ok by lia. cbn [bind]. rewrite U1, V1, B2, B3.
    assert (Pt : Permutation (idx t') (idxs ci)) by (apply Permutation_map; auto).
    assert (It' : forall j, In j (idx t') -> In j (idxs l1 ++ idx t ++ idxs l2)).
    { intros j J. apply in_or_app; right; apply in_or_app; left. right. eapply Permutation_in; eauto. }
    assert (Rt' : In (root t') (idxs l1 ++ idx t ++ idxs l2)) by (apply It'; apply root_in).
    assert (Lt' : (root t' < hlen h)%nat) by (apply L; right; auto).
    assert (Ntr : root t' <> r) by (intros Q; apply Nr; rewrite <- Q; auto).
    rewrite get_ok by lia. cbn [bind]. rewrite put_ok by lia. cbn [bind].
    unfold check.
    replace (0 <=? Z.of_nat (length l1)) with true by (symmetry; apply Z.leb_le; lia).
    replace (Z.of_nat (length l1) <? 4) with true by (symmetry; apply Z.ltb_lt; lia).
    cbn [andb bind]. rewrite Nat2Z.id. rewrite dn_set_ok by (simpl; lia).
    rewrite !cells_set. rewrite (fupd_ne _ (root t')) by auto.
    assert (Fr : forall j, ~ In j (idx t) -> cells h1 j = cells h j).
    { intros j J. apply F1. exact J. }
    assert (Cr : cells h1 r = cells h r).
    { apply Fr. intros J. apply Nr. apply in_or_app; right; apply in_or_app; auto. }
    rewrite Cr, A4.
    eexists _, (Node r x e (l1 ++ t' :: l2)), y, f. split; [reflexivity|].
    split; [unfold shape in *; simpl; intuition congruence|].
    split; auto. split; auto. rewrite cells_set.
    match goal with |- rep ?c _ /\ _ => set (c3 := c) end.
    assert (C3r : c3 r = with_dn (cells h r) (pad (map root (l1 ++ t' :: l2)))).
    { unfold c3. rewrite fupd_eq. f_equal. rewrite !map_app. cbn [map]. unfold pad.
      rewrite !app_length. cbn [length]. rewrite <- !app_assoc. cbn [app].
      rewrite <- (map_length root l1). rewrite set_nth_mid. reflexivity. }
    assert (C3t : c3 (root t') = with_upi (with_up (cells h1 (root t')) r) (Z.of_nat (length l1))).
    { unfold c3. rewrite fupd_ne, fupd_eq by auto. reflexivity. }
    assert (C3 : forall j, j <> r -> j <> root t' -> c3 j = cells h1 j).
    { intros j J J'. unfold c3. rewrite !fupd_ne by auto. reflexivity. }
    assert (Nk1 : forall j, In j (idxs l1) -> ~ In j (idx t) /\ j <> r /\ j <> root t').
    { intros j J. assert (~ In j (idx t)) by (intros I; eapply (NoDup_app_d (idxs l1)); [exact Nk|exact J|apply in_or_app; auto]).
      split; auto. split; [intros ->; apply Nr; apply in_or_app; auto|]. intros ->. apply H. right.
      eapply Permutation_in; [exact Pt|apply root_in]. }
    assert (Nk2 : forall j, In j (idxs l2) -> ~ In j (idx t) /\ j <> r /\ j <> root t').
    { intros j J. assert (~ In j (idx t)) by (intros I; apply NoDup_app_r in Nk; eapply NoDup_app_d; eauto).
      split; auto. split; [intros ->; apply Nr; apply in_or_app; right; apply in_or_app; auto|]. intros ->. apply H. right.
      eapply Permutation_in; [exact Pt|apply root_in]. }
    split; [|split; [|split; [|split]]].
    + rewrite rep_eq. rewrite C3r. cbn [ix ie idl idn with_dn]. rewrite A3, !app_length. cbn [length].
      split; auto. split; auto. split; auto. split; auto. split; [lia|].
      apply reps_app. rewrite Z.add_0_l. split.
      * eapply reps_ext; [|exact B1]. intros j J. destruct (Nk1 j J) as (? & ? & ?). rewrite C3 by auto. auto.
      * cbn [reps]. rewrite C3t. cbn [iup iupi with_upi with_up]. split; auto. split; auto. split.
        -- eapply rep_rootfree; [| | |exact R1].
           ++ eapply Permutation_NoDup; [apply Permutation_sym; exact Pt|]. exact (proj2 (proj1 (NoDup_cons_iff i (idxs ci)) Nt)).
           ++ rewrite C3t. repeat split.
           ++ intros j J J'. apply C3; auto. intros ->. apply Nr. apply It'; auto.
        -- eapply reps_ext; [|exact B5]. intros j J. destruct (Nk2 j J) as (? & ? & ?). rewrite C3 by auto. auto.
    + rewrite ord_eq. apply Forall_app. split; auto. constructor; auto. split; auto.
      pose proof (key_in t') as (z & I). assert (J := Permutation_in _ P1 I).
      apply in_flat_map in J. destruct J as (u & J1 & J2).
      rewrite Forall_forall in Oci. destruct (Oci u J1) as [Q1 Q2]. apply ord_ents in Q2.
      rewrite Forall_forall in Q2. specialize (Q2 _ J2). cbn [snd] in Q2. destruct Ot as [Ot _]. change (key t) with f in Ot. lia.
    + cbn [ents]. rewrite !flat_map_app. cbn [flat_map]. unfold t. cbn [ents app].
      eapply perm_trans; [|apply perm_swap]. apply perm_skip.
      apply Permutation_sym. apply Permutation_cons_app. apply Permutation_app_head. apply Permutation_app_tail. exact P1.
    + intros j J J0. rewrite C3.
      * apply Fr. intros I. apply J. right. apply in_or_app; right; apply in_or_app; auto.
      * intros ->. apply J. left; auto.
      * intros ->. apply J. right; auto.
    + rewrite C3r. auto.
Qed.

Lemma detach_in T : forall h i,
  rep (cells h) T -> ord T -> NoDup (idx T) -> (forall j, In j (idx T) -> (j < hlen h)%nat) ->
  ~ In 0%nat (idx T) -> In i (idx T) -> i <> root T -> top h <> i -> detach_post h T i.
Proof.
  induction T as [r x e cs IH] using tree_ind'. intros h i R O N L Z I Nr Tp.
  rewrite idx_node in I. destruct I as [I|I]; [cbn [root] in Nr; congruence|].
  assert (Ic : exists t, In t cs /\ In i (idx t)).
  { unfold idxs in I. apply in_map_iff in I. destruct I as (a & Q & I). apply in_flat_map in I.
    destruct I as (t & I & J). exists t. split; auto. rewrite <- Q. apply in_map; auto. }
  destruct Ic as (t & Ic & It). apply in_split in Ic. destruct Ic as (l1 & l2 & ->).
  destruct (Nat.eq_dec i (root t)) as [->|Nt].
  { apply detach_kid; auto. }
  assert (IHt : Forall (fun _ => True) l1 /\ (forall h i, rep (cells h) t -> ord t -> NoDup (idx t) ->
    (forall j, In j (idx t) -> (j < hlen h)%nat) -> ~ In 0%nat (idx t) -> In i (idx t) -> i <> root t -> top h <> i -> detach_post h t i)).
  { split; [apply Forall_forall; auto|]. apply Forall_app in IH. destruct IH as [_ IH]. inversion IH; auto. }
  destruct IHt as [_ IHt]. clear IH.
  pose proof (proj1 (rep_eq _ _ _ _ _) R) as (A1 & A2 & A3 & A4 & A5 & A6).
  pose proof (proj1 (ord_eq _ _ _ _) O) as Oc.
  apply Forall_app in Oc. destruct Oc as [Oc1 Oc2]. apply Forall_cons_iff in Oc2; destruct Oc2 as [Ot Oc3].
  apply reps_app in A6. destruct A6 as [B1 B2]. cbn [reps] in B2. destruct B2 as (B2 & B3 & B4 & B5).
  rewrite Z.add_0_l in *.
  rewrite idx_node, idxs_app, idxs_cons in *.
  pose proof (proj1 (NoDup_cons_iff _ _) N) as [Nr' Nk].
  assert (Nt' : NoDup (idx t)) by (apply NoDup_app_r in Nk; apply NoDup_app_l in Nk; auto).
  destruct (IHt h i) as (h' & t' & y & f & E & S & T1 & K1 & R1 & O1 & P1 & F1 & U1 & V1); auto.
  { tauto. }
  { intros j J. apply L. right. apply in_or_app; right; apply in_or_app; auto. }
  { intros J. apply Z. right. apply in_or_app; right; apply in_or_app; auto. }
  exists h', (Node r x e (l1 ++ t' :: l2)), y, f. split; auto. split; auto. split; auto. split; auto.
  rewrite idx_node, idxs_app, idxs_cons. cbn [root].
  assert (NZ : forall j, In j (r :: idxs l1 ++ idx t ++ idxs l2) -> j <> 0%nat) by (intros j J ->; auto).
  assert (Cr : cells h' r = cells h r).
  { apply F1; [|apply NZ; left; auto]. intros J. apply Nr'. apply in_or_app; right; apply in_or_app; auto. }
  split; [|split; [|split; [|split]]].
  - rewrite rep_eq. rewrite Cr. rewrite A3, A4, !map_app, !app_length. cbn [map length]. rewrite T1.
    rewrite app_length in A5. cbn [length] in A5.
    split; auto. split; auto. split; auto. split; auto. split; auto.
    apply reps_app. rewrite Z.add_0_l. split.
    + eapply reps_ext; [|exact B1]. intros j J. apply F1.
      * intros I'. eapply (NoDup_app_d (idxs l1)); [exact Nk|exact J|apply in_or_app; auto].
      * apply NZ. right. apply in_or_app; auto.
    + cbn [reps]. rewrite T1, U1, V1. split; auto. split; auto. split; auto.
      eapply reps_ext; [|exact B5]. intros j J. apply F1.
      * intros I'. apply NoDup_app_r in Nk. eapply NoDup_app_d; eauto.
      * apply NZ. right. apply in_or_app; right; apply in_or_app; auto.
  - rewrite ord_eq. apply Forall_app. split; auto. constructor; auto. rewrite K1. split; auto. apply Ot.
  - cbn [ents]. rewrite !flat_map_app. cbn [flat_map].
    eapply perm_trans; [|apply perm_swap]. apply perm_skip.
    eapply perm_trans; [apply Permutation_app_head; apply Permutation_app_tail; exact P1|]. cbn [app].
    apply Permutation_sym. apply Permutation_middle.
  - intros j J J0. apply F1; auto. intros I'. apply J. right. apply in_or_app; right; apply in_or_app; auto.
  - rewrite Cr. auto.
Qed.
