(** The invariant of the timer heap and its preservation by every operation. *)
From Coq Require Import ZArith List Bool Arith Lia Permutation.
Import ListNotations.
From Verif Require Import TimerModel TimerSpec TimerProofs.
Open Scope Z_scope.

Definition oents (T : option tree) : list ent := match T with Some t => ents t | None => [] end.
Definition oidx (T : option tree) : list nat := map eidx (oents T).
(** the chain of free cells *)
Fixpoint fchain (c : nat -> item) (i : nat) (l : list nat) : Prop :=
  match l with
  | [] => i = 0%nat
  | j :: l => i = j /\ fchain c (iup (c j)) l
  end.

Record Inv (h : heap) (T : option tree) (fl : list nat) : Prop := mkInv {
  inv_top : match T with None => top h = 0%nat | Some t => top h = root t /\ rep (cells h) t /\ ord t end;
  inv_all : Permutation (seq 1 (hlen h - 1)) (oidx T ++ fl);
  inv_len : (0 < hlen h)%nat;
  inv_free : fchain (cells h) (free h) fl;
  inv_none : forall j, In j fl -> ix (cells h j) = None;
  inv_size : size h = Z.of_nat (length (oents T));
  inv_ti : forall x, ti h x <> 0%nat -> exists e, In (ti h x, x, e) (oents T)
}.

Lemma inv_nodup h T fl : Inv h T fl -> NoDup (oidx T ++ fl).
Proof. intros I. eapply Permutation_NoDup; [apply (inv_all _ _ _ I)|apply seq_NoDup]. Qed.
Lemma inv_in h T fl j : Inv h T fl -> In j (oidx T ++ fl) -> (0 < j < hlen h)%nat.
Proof.
  intros I J. eapply Permutation_in in J; [|apply Permutation_sym; apply (inv_all _ _ _ I)].
  apply in_seq in J. pose proof (inv_len _ _ _ I). lia.
Qed.
Lemma inv_in' h T fl j : Inv h T fl -> (0 < j < hlen h)%nat -> In j (oidx T ++ fl).
Proof.
  intros I J. eapply Permutation_in; [apply (inv_all _ _ _ I)|]. apply in_seq. lia.
Qed.

(** what a cell in the tree holds *)
Lemma rep_cell c t i x e : rep c t -> In (i, x, e) (ents t) -> ix (c i) = Some x /\ ie (c i) = e.
Proof.
  induction t as [r y f cs IH] using tree_ind'. rewrite rep_eq. intros (A1 & A2 & A3 & A4 & A5 & A6) [I|I].
  - injection I as <- <- <-. auto.
  - apply in_flat_map in I. destruct I as (t & I & J). rewrite Forall_forall in IH. apply (IH t I); auto.
    apply (reps_in _ _ _ _ _ A6 I).
Qed.

Lemma fchain_ext c c' i l : (forall j, In j l -> c' j = c j) -> fchain c i l -> fchain c' i l.
Proof.
  revert i. induction l as [|j l IH]; intros i E; simpl; auto. intros (A & B).
  rewrite (E j) by (left; auto). split; auto. apply IH; auto. intros k K. apply E; right; auto.
Qed.

Lemma inv_init : Inv hinit None [].
Proof. constructor; simpl; auto. congruence. Qed.

(** *** push *)
Definition fresh_tree (i x : nat) (e : Z) : tree := Node i x e [].
Lemma fresh_rep c i x e : c i = fresh x e -> rep c (fresh_tree i x e).
Proof. intros E. apply rep_eq. rewrite E. simpl. repeat (split; auto). Qed.
Lemma fresh_ord i x e : ord (fresh_tree i x e).
Proof. apply ord_eq. constructor. Qed.

(** the allocation part of push *)
Definition alloc (h : heap) (x : nat) (e : Z) : option heap :=
  if Nat.eqb (free h) 0 then
    Some (mkH (fupd (cells h) (hlen h) (fresh x e)) (S (hlen h)) (size h) (top h) (free h) (fupd (ti h) x (hlen h)))
  else
    do it <- get h (free h);
    Some (mkH (fupd (cells h) (free h) (fresh x e)) (hlen h) (size h) (top h) (iup it) (fupd (ti h) x (free h))).

Lemma alloc_ok h T fl x e : Inv h T fl -> exists h' i fl', alloc h x e = Some h' /\
  ti h' = fupd (ti h) x i /\ size h' = size h /\ top h' = top h /\ cells h' = fupd (cells h) i (fresh x e) /\
  ~ In i (oidx T) /\ i <> 0%nat /\ (i < hlen h')%nat /\ (0 < hlen h')%nat /\ (hlen h <= hlen h')%nat /\
  Permutation (seq 1 (hlen h' - 1)) (i :: oidx T ++ fl') /\
  fchain (cells h') (free h') fl' /\ (forall j, In j fl' -> ix (cells h' j) = None).
Proof.
  intros I. unfold alloc. pose proof (inv_nodup _ _ _ I) as ND. pose proof (inv_len _ _ _ I) as HL.
  destruct (Nat.eqb_spec (free h) 0) as [F|F].
  - pose proof (inv_free _ _ _ I) as FC. destruct fl as [|j fl].
    2:{ simpl in FC. destruct FC as [FC _]. exfalso. assert (0 < j < hlen h)%nat by (eapply inv_in; [exact I|apply in_or_app; right; left; auto]). lia. }
    exists (mkH (fupd (cells h) (hlen h) (fresh x e)) (S (hlen h)) (size h) (top h) (free h) (fupd (ti h) x (hlen h))), (hlen h), [].
    split; auto. simpl. split; auto. split; auto. split; auto. split; auto. split.
    { intros J. assert (0 < hlen h < hlen h)%nat by (eapply inv_in; [exact I|apply in_or_app; left; exact J]). lia. }
    split; [lia|]. split; [lia|]. split; [lia|]. split; [lia|]. split; [|split; [auto|tauto]].
    rewrite Nat.sub_0_r.
    replace (hlen h) with (S (hlen h - 1)) at 1 by lia. rewrite seq_S.
    replace (1 + (hlen h - 1))%nat with (hlen h) by lia.
    eapply perm_trans; [apply Permutation_app_comm|]. simpl. apply perm_skip. apply (inv_all _ _ _ I).
  - pose proof (inv_free _ _ _ I) as FC. destruct fl as [|j fl]; [simpl in FC; congruence|].
    simpl in FC. destruct FC as [FE FC]. subst j.
    assert (B : (0 < free h < hlen h)%nat) by (eapply inv_in; [exact I|apply in_or_app; right; left; auto]).
    rewrite get_ok by lia. cbn [bind].
    eexists _, (free h), fl. split; [reflexivity|]. simpl.
    assert (NI : ~ In (free h) (oidx T ++ fl)) by (apply NoDup_remove_2 in ND; auto).
    split; auto. split; auto. split; auto. split; auto. split; [intros J; apply NI; apply in_or_app; auto|].
    split; [lia|]. split; [lia|]. split; [lia|]. split; [lia|].
    split; [|split].
    + eapply perm_trans; [apply (inv_all _ _ _ I)|]. apply Permutation_sym. apply Permutation_middle.
    + eapply fchain_ext; [|exact FC]. intros j J. apply fupd_ne. intros ->. apply NI. apply in_or_app; auto.
    + intros j J. rewrite fupd_ne; [apply (inv_none _ _ _ I); right; auto|]. intros ->. apply NI. apply in_or_app; auto.
Qed.

Lemma push_eq h x e : push h x e = (do h <- alloc h x e;
  let h := mkH (cells h) (hlen h) (size h + 1) (top h) (free h) (ti h) in
  let i := ti h x in
  if Nat.eqb (top h) 0 then
    Some (mkH (cells h) (hlen h) (size h) i (free h) (ti h), true)
  else
    do it <- get h i;
    do tp <- get h (top h);
    if ie it <=? ie tp then
      do h <- put_under' h i (top h);
      do it <- get h i;
      do tp <- get h (top h);
      Some (mkH (cells h) (hlen h) (size h) i (free h) (ti h), ie it <? ie tp)
    else
      do h <- put_under' h (top h) i;
      Some (h, false)).
Proof. reflexivity. Qed.

Lemma perm_len {A} (a b : list A) : Permutation a b -> length a = length b.
Proof. apply Permutation_length. Qed.

(** push: the new entry is added; the loop is woken up exactly when the new entry is earlier than
    everything there was *)
Lemma push_ok h T fl x e : Inv h T fl -> exists h' T' fl' i b, push h x e = Some (h', b) /\ Inv h' (Some T') fl' /\
  Permutation (ents T') ((i, x, e) :: oents T) /\ ~ In i (oidx T) /\ ti h' = fupd (ti h) x i /\
  b = match T with None => true | Some t => e <? key t end.
Proof.
  intros I. rewrite push_eq.
  destruct (alloc_ok h T fl x e I) as (h1 & i & fl' & E1 & T1 & Z1 & P1 & C1 & NI & I0 & L1 & L0 & LL & A1 & F1 & N1).
  rewrite E1. cbn [bind].
  set (h2 := mkH (cells h1) (hlen h1) (size h1 + 1) (top h1) (free h1) (ti h1)).
  cbv zeta. assert (Ti : ti h2 x = i) by (simpl; rewrite T1; apply fupd_eq). rewrite Ti.
  assert (Ci : cells h2 i = fresh x e) by (simpl; rewrite C1; apply fupd_eq).
  assert (Cn : forall j, j <> i -> cells h2 j = cells h j) by (intros j J; simpl; rewrite C1; apply fupd_ne; auto).
  assert (Nf : ~ In i fl').
  { assert (N : NoDup (i :: oidx T ++ fl')) by (eapply Permutation_NoDup; [exact A1|apply seq_NoDup]).
    inversion N; subst. intros J. apply H1. apply in_or_app; auto. }
  pose proof (inv_top _ _ _ I) as IT. destruct T as [t|].
  - destruct IT as (IT1 & IT2 & IT3).
    assert (Lt : (0 < root t < hlen h)%nat) by (eapply inv_in; [exact I|apply in_or_app; left; apply root_in]).
    simpl (top h2). rewrite P1, IT1. rewrite (proj2 (Nat.eqb_neq _ _)) by lia.
    assert (NJ : forall j, In j (idx t) -> j <> i) by (intros j J ->; apply NI; exact J).
    assert (Rt : rep (cells h2) t) by (eapply rep_ext; [|exact IT2]; intros j J; apply Cn; auto).
    assert (NDt : NoDup (idx t)) by (apply (NoDup_app_l (idx t) fl); exact (inv_nodup _ _ _ I)).
    rewrite (get_ok h2 i) by auto. cbn [bind]. rewrite (get_ok h2 (root t)) by (simpl; lia). cbn [bind].
    rewrite Ci. cbn [ie fresh]. rewrite (rep_key _ _ Rt).
    assert (Lall : forall j, In j (idx t) -> (j < hlen h2)%nat).
    { intros j J. assert (0 < j < hlen h)%nat by (eapply inv_in; [exact I|apply in_or_app; left; exact J]). simpl. lia. }
    assert (Perm2 : forall h' t', shape h2 h' -> Permutation (ents t') ((i, x, e) :: ents t) ->
       (forall j, ~ In j (i :: idx t) -> cells h' j = cells h2 j) -> rep (cells h') t' -> ord t' ->
       forall h'', h'' = mkH (cells h') (hlen h') (size h') (root t') (free h') (ti h') ->
       Inv h'' (Some t') fl').
    { intros h' t' S P F R O h'' ->. destruct S as (S1 & S2 & S3 & S4 & S5).
      assert (Pi : Permutation (idx t') (i :: idx t)) by (apply (Permutation_map eidx) in P; exact P).
      assert (Dj : forall j, In j fl' -> ~ In j (i :: idx t)).
      { intros j J. assert (N : NoDup ((i :: idx t) ++ fl')) by (eapply Permutation_NoDup; [exact A1|apply seq_NoDup]).
        intros K. eapply NoDup_app_d; eauto. }
      constructor; simpl.
      - auto.
      - rewrite S1. simpl. eapply perm_trans; [exact A1|].
        change (i :: oidx (Some t) ++ fl') with ((i :: idx t) ++ fl'). apply Permutation_app_tail. apply Permutation_sym. exact Pi.
      - rewrite S1. auto.
      - rewrite S4. eapply fchain_ext; [|exact F1]. intros j J. rewrite F by auto. reflexivity.
      - intros j J. rewrite F by auto. apply N1; auto.
      - rewrite S2. simpl. rewrite Z1, (inv_size _ _ _ I). apply perm_len in P. rewrite P. simpl. lia.
      - intros y. rewrite S5. simpl. rewrite T1. unfold fupd. destruct (Nat.eqb_spec y x) as [->|].
        + intros _. exists e. eapply Permutation_in; [apply Permutation_sym; exact P|left; auto].
        + intros Y. destruct (inv_ti _ _ _ I y Y) as (f & J). exists f.
          eapply Permutation_in; [apply Permutation_sym; exact P|right; auto]. }
    destruct (Z.leb_spec e (key t)).
    + destruct (put_under_ok' h2 (fresh_tree i x e) t) as (h3 & t' & E3 & S3 & Q3 & K3 & R3 & O3 & P3 & F3 & _); auto.
      * apply fresh_rep; auto.
      * apply fresh_ord.
      * simpl. constructor; auto.
      * intros j [<-|J]; auto.
      * change (root (fresh_tree i x e)) with i in *. rewrite E3. cbn [bind].
        destruct S3 as (S31 & S32 & S33 & S34 & S35).
        rewrite get_ok by (rewrite S31; auto). cbn [bind].
        rewrite S33. simpl (top h2). rewrite P1, IT1.
        rewrite get_ok by (rewrite S31; apply Lall; apply root_in). cbn [bind].
        exists (mkH (cells h3) (hlen h3) (size h3) i (free h3) (ti h3)), t', fl', i, (e <? key t).
        split.
        { f_equal. f_equal.
          rewrite <- Q3. rewrite (rep_key _ _ R3). rewrite K3. change (key (fresh_tree i x e)) with e. f_equal.
          destruct (key_in t) as (y & J).
          assert (J' : In (root t, y, key t) (ents t')) by (eapply Permutation_in; [apply Permutation_sym; exact P3|right; exact J]).
          apply (rep_cell _ _ _ _ _ R3) in J'. tauto. }
        split; [|split; [exact P3|split; [exact NI|split; [|reflexivity]]]].
        -- eapply (Perm2 h3 t'); [repeat split; auto|exact P3| |exact R3|exact O3|rewrite Q3; reflexivity].
           intros j J. apply F3. intros K. apply J. exact K.
        -- simpl. rewrite S35. simpl. auto.
    + destruct (put_under_ok' h2 t (fresh_tree i x e)) as (h3 & t' & E3 & S3 & Q3 & K3 & R3 & O3 & P3 & F3 & _); auto.
      * apply fresh_rep; auto.
      * apply fresh_ord.
      * simpl; lia.
      * eapply Permutation_NoDup; [apply Permutation_app_comm|]. simpl. constructor; auto.
      * intros j J. apply in_app_or in J. destruct J as [J|[<-|[]]]; auto.
      * change (root (fresh_tree i x e)) with i in *. rewrite E3. cbn [bind].
        destruct S3 as (S31 & S32 & S33 & S34 & S35).
        exists h3, t', fl', i, false. split; auto.
        assert (P3' : Permutation (ents t') ((i, x, e) :: ents t)).
        { eapply perm_trans; [exact P3|]. eapply perm_trans; [apply Permutation_app_comm|]. reflexivity. }
        split; [|split; [exact P3'|split; [exact NI|split]]].
        -- eapply (Perm2 h3 t'); [repeat split; auto|exact P3'| |exact R3|exact O3|].
           ++ intros j J. apply F3. intros K. apply J. apply in_app_or in K. destruct K as [K|[K|[]]]; [right; auto|left; auto].
           ++ rewrite Q3. destruct h3; simpl in *. f_equal. congruence.
        -- rewrite S35. simpl. auto.
        -- symmetry. apply Z.ltb_ge. lia.
  - simpl (top h2). rewrite P1, IT. cbn [Nat.eqb].
    exists (mkH (cells h1) (hlen h1) (size h1 + 1) i (free h1) (ti h1)), (fresh_tree i x e), fl', i, true.
    split; auto. split; [|split; [reflexivity|split; [auto|split; [auto|reflexivity]]]].
    constructor; simpl; auto.
    + split; [reflexivity|]. split; [|exact Logic.I]. apply (fresh_rep (cells h2) i x e Ci).
    + rewrite Z1, (inv_size _ _ _ I). reflexivity.
    + intros y. rewrite T1. unfold fupd. destruct (Nat.eqb_spec y x) as [->|].
      * intros _. exists e. auto.
      * intros Y. destruct (inv_ti _ _ _ I y Y) as (f & []).
Qed.

(** *** remove *)
(** what detach does to the whole heap *)
Definition shape' (h h' : heap) : Prop := hlen h' = hlen h /\ size h' = size h /\ free h' = free h /\ ti h' = ti h.
Lemma detach_top h t : top h = root t -> rep (cells h) t -> ord t -> NoDup (idx t) ->
  (forall j, In j (idx t) -> (j < hlen h)%nat) ->
  exists h' T' x, detach h (root t) = Some h' /\ shape' h h' /\
    match T' with None => top h' = 0%nat | Some t' => top h' = root t' /\ rep (cells h') t' /\ ord t' end /\
    Permutation (ents t) ((root t, x, key t) :: oents T') /\
    (forall j, ~ In j (idx t) -> cells h' j = cells h j).
Proof.
  intros Tp R O N L. destruct t as [r x e cs]. cbn [root key] in *. rewrite idx_node in *.
  pose proof (proj1 (rep_eq _ _ _ _ _) R) as (A1 & A2 & A3 & A4 & A5 & A6).
  pose proof (proj1 (ord_eq _ _ _ _) O) as Oc.
  unfold detach. rewrite get_ok by (apply L; left; auto). cbn [bind]. rewrite A3.
  destruct (Nat.eqb_spec (length cs) 0) as [E|E].
  - destruct cs; [|discriminate E]. rewrite Tp, Nat.eqb_refl.
    eexists _, None, x. split; [reflexivity|]. split; [repeat split|]. split; [reflexivity|]. split; [reflexivity|]. auto.
  - destruct (merge_ok h r x e cs) as (h1 & t' & E1 & S1 & R1 & O1 & P1 & F1 & U1 & V1); auto.
    { intros ->. apply E. reflexivity. }
    { eapply Forall_impl; [|exact Oc]. simpl. tauto. }
    rewrite E1. cbn [bind]. unfold relink. destruct S1 as (S1 & S2 & S3 & S4 & S5). rewrite S3, Tp, Nat.eqb_refl.
    assert (Pt : Permutation (idx t') (idxs cs)) by (apply Permutation_map; auto).
    assert (Lt : (root t' < hlen h)%nat).
    { apply L. right. eapply Permutation_in; [exact Pt|apply root_in]. }
    rewrite get_ok by (simpl; lia). cbn [bind]. rewrite put_ok by (simpl; lia).
    eexists _, (Some t'), x. split; [reflexivity|]. rewrite cells_set. cbn [cells].
    split; [unfold shape'; simpl; auto|]. split; [|split].
    + split; [reflexivity|]. split; auto.
      eapply rep_rootfree; [| | |exact R1].
      * eapply Permutation_NoDup; [apply Permutation_sym; exact Pt|]. apply NoDup_cons_iff in N. tauto.
      * rewrite fupd_eq. repeat split.
      * intros j J J'. apply fupd_ne; auto.
    + cbn [ents oents]. apply perm_skip. apply Permutation_sym; auto.
    + intros j J. rewrite fupd_ne; [apply F1; auto|]. intros ->. apply J. right. eapply Permutation_in; [exact Pt|apply root_in].
Qed.

Lemma remove_ok h T fl i x e : Inv h T fl -> In (i, x, e) (oents T) ->
  exists h' T', remove h i = Some h' /\ Inv h' T' (i :: fl) /\
    Permutation (oents T) ((i, x, e) :: oents T') /\ ti h' = fupd (ti h) x 0%nat /\ hlen h' = hlen h.
Proof.
  intros I J. destruct T as [t|]; [|destruct J]. cbn [oents] in J.
  destruct (inv_top _ _ _ I) as (Tp & R & O).
  pose proof (inv_nodup _ _ _ I) as ND. change (oidx (Some t)) with (idx t) in ND.
  assert (Nt : NoDup (idx t)) by (eapply NoDup_app_l; eauto).
  assert (Ji : In i (idx t)) by (apply (in_map eidx) in J; exact J).
  assert (L : forall j, In j (idx t) -> (0 < j < hlen h)%nat).
  { intros j K. eapply inv_in; [exact I|]. apply in_or_app. left. exact K. }
  destruct (rep_cell _ _ _ _ _ R J) as [X1 X2].
  unfold remove. rewrite get_ok by (apply L; auto). cbn [bind]. rewrite X1. cbn [bind].
  set (h0 := mkH (cells h) (hlen h) (size h - 1) (top h) (free h) (fupd (ti h) x 0%nat)).
  assert (Main : exists h1 T', detach h0 i = Some h1 /\ shape' h0 h1 /\
    match T' with None => top h1 = 0%nat | Some t' => top h1 = root t' /\ rep (cells h1) t' /\ ord t' end /\
    Permutation (ents t) ((i, x, e) :: oents T') /\
    (forall j, ~ In j (idx t) -> j <> 0%nat -> cells h1 j = cells h0 j)).
  { assert (Same : forall y f T', Permutation (ents t) ((i, y, f) :: oents T') -> (i, y, f) = (i, x, e)).
    { intros y f T' P. assert (Q : In (i, y, f) (ents t)) by (eapply Permutation_in; [apply Permutation_sym; exact P|left; auto]).
      destruct (rep_cell _ _ _ _ _ R Q) as [Y1 Y2]. congruence. }
    destruct (Nat.eq_dec i (root t)) as [->|Nr].
    - destruct (detach_top h0 t) as (h1 & T' & y & E & S & TT & P & F); auto.
      { intros j K. simpl. apply L; auto. }
      exists h1, T'. split; auto. split; auto. split; auto. split.
      + rewrite (Same _ _ _ P) in P. exact P.
      + intros j K _. apply F; auto.
    - destruct (detach_in t h0 i) as (h1 & t' & y & f & E & S & Q1 & Q2 & Q3 & Q4 & P & F & _); auto.
      { intros j K. simpl. apply L; auto. }
      { intros K. apply L in K. lia. }
      { simpl. congruence. }
      exists h1, (Some t'). split; auto. destruct S as (S1 & S2 & S3 & S4 & S5).
      split; [repeat split; auto|]. split.
      + split; auto. rewrite S3. simpl. congruence.
      + split; auto. rewrite (Same _ _ (Some t') P) in P. exact P. }
  destruct Main as (h1 & T' & E & S & TT & P & F). rewrite E. cbn [bind].
  destruct S as (S1 & S2 & S4 & S5).
  rewrite put_ok by (rewrite S1; simpl; apply L; auto). cbn [bind].
  assert (Pi : Permutation (idx t) (i :: oidx T')) by (apply (Permutation_map eidx) in P; exact P).
  assert (NT' : ~ In i (oidx T')).
  { assert (N : NoDup (i :: oidx T')) by (eapply Permutation_NoDup; [exact Pi|auto]). apply NoDup_cons_iff in N. tauto. }
  assert (Nf : forall j, In j fl -> j <> i /\ ~ In j (idx t) /\ j <> 0%nat).
  { intros j K. assert (~ In j (idx t)) by (intros K'; eapply NoDup_app_d; eauto).
    split; [intros ->; auto|]. split; auto.
    assert (0 < j < hlen h)%nat by (eapply inv_in; [exact I|apply in_or_app; right; exact K]). lia. }
  eexists _, T'. split; [reflexivity|]. cbn [set_cells cells hlen size top free ti].
  assert (C : forall j, j <> i -> fupd (cells h1) i (freed (free h1)) j = cells h1 j) by (intros j K; apply fupd_ne; auto).
  split; [|split; [exact P|split; [rewrite S5; reflexivity|rewrite S1; reflexivity]]].
  constructor; cbn [set_cells cells hlen size top free ti].
  - destruct T' as [t'|]; auto. destruct TT as (TT1 & TT2 & TT3). split; auto. split; auto.
    eapply rep_ext; [|exact TT2]. intros j K. apply C. intros ->. apply NT'. exact K.
  - rewrite S1. simpl (hlen h0). eapply perm_trans; [apply (inv_all _ _ _ I)|]. change (oidx (Some t)) with (idx t).
    eapply perm_trans; [apply Permutation_app_tail; exact Pi|]. simpl. apply Permutation_middle.
  - rewrite S1. apply (inv_len _ _ _ I).
  - split; auto. rewrite fupd_eq. cbn [iup freed].
    eapply fchain_ext; [|rewrite S4; apply (inv_free _ _ _ I)]. intros j K. destruct (Nf j K) as (K1 & K2 & K3).
    rewrite C by auto. rewrite F by auto. reflexivity.
  - intros j [<-|K].
    + rewrite fupd_eq. reflexivity.
    + destruct (Nf j K) as (K1 & K2 & K3). rewrite C by auto. rewrite F by auto. apply (inv_none _ _ _ I); auto.
  - rewrite S2. simpl. rewrite (inv_size _ _ _ I). cbn [oents]. apply perm_len in P. rewrite P. simpl length. lia.
  - intros y. rewrite S5. simpl. unfold fupd. destruct (Nat.eqb_spec y x) as [->|Ny]; [congruence|].
    intros Y. destruct (inv_ti _ _ _ I y Y) as (f & K). exists f.
    eapply Permutation_in in K; [|exact P]. destruct K as [K|K]; auto. congruence.
Qed.

(** *** the cells in use are the entries of the tree *)
Lemma live_perm h T fl : Inv h T fl -> Permutation (live_cells h) (map (fun a => (snd (fst a), snd a)) (oents T)).
Proof.
  intros I. unfold live_cells.
  set (f := fun i => match ix (cells h i) with Some x => [(x, ie (cells h i))] | None => [] end).
  assert (PF : forall l m, Permutation l m -> Permutation (flat_map f l) (flat_map f m)).
  { induction 1; simpl; auto.
    - apply Permutation_app_head; auto.
    - rewrite !app_assoc. apply Permutation_app_tail. apply Permutation_app_comm.
    - eapply perm_trans; eauto. }
  eapply perm_trans; [apply PF; apply (inv_all _ _ _ I)|]. rewrite flat_map_app.
  assert (E2 : flat_map f fl = []).
  { assert (NN := inv_none _ _ _ I). clear - NN. induction fl as [|j l IH]; simpl; auto.
    unfold f at 1. rewrite NN by (left; auto). simpl. apply IH. intros; apply NN; right; auto. }
  rewrite E2, app_nil_r. unfold oidx.
  assert (E1 : forall a, In a (oents T) -> f (eidx a) = [(snd (fst a), snd a)]).
  { intros [[i x] e] J. destruct T as [t|]; [|destruct J]. destruct (inv_top _ _ _ I) as (_ & R & _).
    destruct (rep_cell _ _ _ _ _ R J) as [X1 X2]. unfold f, eidx. simpl. rewrite X1, X2. reflexivity. }
  clear - E1. induction (oents T) as [|a l IH]; simpl; auto. rewrite E1 by (left; auto). simpl. apply perm_skip. apply IH.
  intros; apply E1; right; auto.
Qed.
Lemma live_iff h T fl y f : Inv h T fl -> (In (y, f) (live_cells h) <-> exists i, In (i, y, f) (oents T)).
Proof.
  intros I. pose proof (live_perm _ _ _ I) as P. split.
  - intros J. eapply Permutation_in in J; [|exact P]. apply in_map_iff in J. destruct J as ([[i x] e] & Q & J).
    simpl in Q. injection Q as <- <-. eauto.
  - intros (i & J). eapply Permutation_in; [apply Permutation_sym; exact P|]. apply in_map_iff. exists (i, y, f). auto.
Qed.

(** *** one critical section *)
(** the abstract effect of an operation on the entries *)
Lemma hstep_ok h T fl o : Inv h T fl -> exists h' T' fl' ev, hstep h o = Some (h', ev) /\ Inv h' T' fl' /\
  match o with
  | Arm x e => exists i, ev = Armed x e /\ Permutation (oents T') ((i, x, e) :: oents T) /\ ti h' = fupd (ti h) x i /\ i <> 0%nat
  | Stop x => ev = Stopped x /\
      (if Nat.eqb (ti h x) 0 then T' = T /\ ti h' = ti h
       else exists e, Permutation (oents T) ((ti h x, x, e) :: oents T') /\ ti h' = fupd (ti h) x 0%nat)
  | Pop now =>
      (exists i x e, ev = Fired x e now /\ e < now /\ Permutation (oents T) ((i, x, e) :: oents T') /\
         ti h' = fupd (ti h) x 0%nat /\ (forall a, In a (oents T) -> e <= snd a)) \/
      (ev = Asleep now /\ T' = T /\ h' = h /\ (forall a, In a (oents T) -> now <= snd a))
  end.
Proof.
  intros I. destruct o as [x e|x|now].
  - destruct (push_ok h T fl x e I) as (h' & T' & fl' & i & b & E & I' & P & NI & Ti & _).
    exists h', (Some T'), fl', (Armed x e). cbn [hstep]. rewrite E. cbn [bind fst]. split; auto. split; auto.
    exists i. split; auto. split; auto. split; auto.
    assert (Q : In i (oidx (Some T'))).
    { unfold oidx. assert (K : In (i, x, e) (ents T')) by (eapply Permutation_in; [apply Permutation_sym; exact P|left; auto]).
      apply (in_map eidx) in K. exact K. }
    assert (0 < i < hlen h')%nat by (eapply inv_in; [exact I'|apply in_or_app; left; exact Q]). lia.
  - cbn [hstep]. destruct (Nat.eqb_spec (ti h x) 0) as [E|E].
    + exists h, T, fl, (Stopped x). auto.
    + destruct (inv_ti _ _ _ I x E) as (e & J).
      destruct (remove_ok _ _ _ _ _ _ I J) as (h' & T' & E' & I' & P & Ti & _).
      rewrite E'. cbn [bind]. exists h', T', (ti h x :: fl), (Stopped x). split; auto. split; auto. split; auto. exists e. auto.
  - cbn [hstep]. rewrite (inv_size _ _ _ I). destruct T as [t|].
    + rewrite (proj2 (Z.eqb_neq _ _)) by (destruct t; simpl; lia).
      destruct (inv_top _ _ _ I) as (Tp & R & O).
      assert (Lt : (0 < root t < hlen h)%nat) by (eapply inv_in; [exact I|apply in_or_app; left; apply root_in]).
      rewrite Tp. rewrite get_ok by lia. cbn [bind]. rewrite (rep_key _ _ R).
      pose proof (ord_ents _ O) as OE. rewrite Forall_forall in OE.
      destruct (Z.leb_spec now (key t)).
      * exists h, (Some t), fl, (Asleep now). split; auto. split; auto. right. split; auto. split; auto. split; auto.
        intros a J. specialize (OE a J). cbn [oents] in *. lia.
      * destruct (key_in t) as (x & J).
        destruct (remove_ok _ _ _ _ _ _ I J) as (h' & T' & E' & I' & P & Ti & _).
        rewrite E'. cbn [bind]. destruct (rep_cell _ _ _ _ _ R J) as [X1 X2]. rewrite X1.
        exists h', T', (root t :: fl), (Fired x (key t) now). split; auto. split; auto. left.
        exists (root t), x, (key t). auto.
    + simpl. exists h, None, fl, (Asleep now). split; auto. split; auto. right. split; auto. split; auto. split; auto.
      intros a [].
Qed.
