(** Inductive invariants of the request machine. *)
From Coq Require Import ZArith List Bool Arith Lia.
Import ListNotations.
From Verif Require Import RequestModel RequestSpec.
Open Scope Z_scope.

Definition locked (p : pc) : bool :=
  match p with
  | Idle | SF2 _ | LockIF _ | LockCB _ | LockB _ _ | LockF _ => false
  | _ => true
  end.

Lemma nth_upd_same l t th x : nth_error l t = Some x -> nth_error (upd l t th) t = Some th.
Proof. revert t; induction l; intros [|t]; simpl; intros; try discriminate; auto. Qed.
Lemma nth_upd_other l t th u : u <> t -> nth_error (upd l t th) u = nth_error l u.
Proof. revert t u; induction l; intros [|t] [|u]; simpl; intros; auto; try congruence. Qed.

(** shared-state changes made without holding the lock *)
Inductive cas : shared -> shared -> Prop :=
| cas_id s : cas s s
| cas_pending s t : st s = RsNew -> cas s (log (set_st s RsPending) (EvPending t))
| cas_inflynil s : st s = RsPending -> cas s (log (set_st s RsInFly) (EvInFly None))
| cas_run s t : st s = RsPending -> cas s (log (log (set_st s RsInFly) (EvInFly None)) (EvRun t))
| cas_route s : st s = RsNew -> cas s (log s EvRouted).

Section Generic.
Variable react : nat -> list ev -> list ract.
Variables rid rmsg : Z.
Notation tstep := (tstep react rid rmsg).
Notation step := (step react rid rmsg).
Notation run := (run react rid rmsg).

Definition is_check (p : pc) : bool :=
  match p with CheckIF _ | CheckCB _ | CheckB _ _ | CheckF _ => true | _ => false end.

(** A step taken without the lock either acquires it or is one compare-and-swap. *)
Lemma unlocked_step s t th s' th' : tstep s t th = Some (s', th') -> locked (tpc th) = false ->
  (lk s = None /\ s' = set_lk s (Some t) /\ is_check (tpc th') = true /\ cur th' = cur th /\ dn th' = dn th /\ prog th' = prog th) \/
  (cas s s' /\ locked (tpc th') = false).
Proof.
  intros E L. unfold RequestModel.tstep in E. destruct (tpc th) eqn:P; try discriminate L.
  - destruct (prog th) as [|o rest]; [discriminate|].
    destruct o; right;
      repeat match type of E with context [if ?b then _ else _] => destruct b eqn:? end;
      inversion E; subst; split; try reflexivity; constructor; apply Z.eqb_eq; auto.
  - right. destruct (st s =? RsPending) eqn:?; inversion E; subst; split; try reflexivity; constructor.
    apply Z.eqb_eq; auto.
  - left. unfold acquire in E. destruct (lk s); inversion E; subst. auto 10.
  - left. unfold acquire in E. destruct (lk s); inversion E; subst. auto 10.
  - left. unfold acquire in E. destruct (lk s); inversion E; subst. auto 10.
  - left. unfold acquire in E. destruct (lk s); inversion E; subst. auto 10.
Qed.

Lemma cas_lk s s' : cas s s' -> lk s' = lk s.
Proof. destruct 1; reflexivity. Qed.

(** The invariant scheme: [F] holds of the shared state when the lock is free, [P] when it is
    held by a thread, [R] relates every thread with the shared state. *)
Variable F : shared -> Prop.
Variable P : thread -> shared -> Prop.
Variable R : thread -> shared -> Prop.

Definition J (s : sys) : Prop :=
  (forall t th, nth_error (ths s) t = Some th -> locked (tpc th) = true -> lk (sh s) = Some t) /\
  (forall t th, nth_error (ths s) t = Some th -> R th (sh s)) /\
  match lk (sh s) with
  | None => F (sh s)
  | Some t => exists th, nth_error (ths s) t = Some th /\ locked (tpc th) = true /\ P th (sh s)
  end.

Hypothesis HcasF : forall s s', cas s s' -> F s -> F s'.
Hypothesis HcasP : forall s s' th, cas s s' -> P th s -> P th s'.
Hypothesis Hacq : forall s t th s' th', tstep s t th = Some (s', th') -> locked (tpc th) = false ->
  is_check (tpc th') = true -> lk s = None -> R th s -> F s -> P th' s'.
Hypothesis Hlock : forall s t th s' th', tstep s t th = Some (s', th') ->
  locked (tpc th) = true -> lk s = Some t -> P th s -> R th s ->
  (locked (tpc th') = true /\ lk s' = Some t /\ P th' s') \/
  (locked (tpc th') = false /\ lk s' = None /\ F s').
Hypothesis Hown : forall s t th s' th', tstep s t th = Some (s', th') -> R th s ->
  (locked (tpc th) = true -> P th s) -> R th' s'.
Hypothesis Hother : forall s t th s' th' th2, tstep s t th = Some (s', th') -> R th2 s -> R th2 s'.

Lemma J_step s t : J s -> J (step s t).
Proof.
  intros (A & B & C). unfold RequestModel.step.
  destruct (nth_error (ths s) t) as [th|] eqn:N; [|split; auto].
  destruct (tstep (sh s) t th) as [[h th']|] eqn:E; [|split; auto].
  assert (NB : forall u x, nth_error (upd (ths s) t th') u = Some x ->
     (u = t /\ x = th') \/ (u <> t /\ nth_error (ths s) u = Some x)).
  { intros u x H. destruct (Nat.eq_dec u t).
    - subst. rewrite (nth_upd_same _ _ _ _ N) in H. inversion H; auto.
    - rewrite nth_upd_other in H by auto. auto. }
  assert (RR : forall u x, nth_error (upd (ths s) t th') u = Some x -> R x h).
  { intros u x H. destruct (NB u x H) as [[-> ->]|[U X]].
    - eapply Hown; eauto. intros L. pose proof (A t th N L) as K. rewrite K in C.
      destruct C as (th0 & N0 & _ & P0). rewrite N in N0. inversion N0; subst. auto.
    - eapply Hother; eauto. }
  destruct (locked (tpc th)) eqn:L.
  - pose proof (A t th N L) as K. rewrite K in C. destruct C as (th0 & N0 & L0 & P0).
    rewrite N in N0. inversion N0; subst th0.
    destruct (Hlock _ _ _ _ _ E L K P0 (B _ _ N)) as [(L' & K' & P')|(L' & K' & F')].
    + split; [|split]; simpl; auto.
      * intros u x H HL. destruct (NB u x H) as [[-> ->]|[U X]]; auto.
        pose proof (A u x X HL). congruence.
      * rewrite K'. exists th'. split; auto. eapply nth_upd_same; eauto.
    + split; [|split]; simpl; auto.
      * intros u x H HL. destruct (NB u x H) as [[-> ->]|[U X]]; [congruence|].
        pose proof (A u x X HL). congruence.
      * rewrite K'. auto.
  - destruct (unlocked_step _ _ _ _ _ E L) as [(K & -> & CK & _)|(CS & L')].
    + rewrite K in C. split; [|split]; simpl; auto.
      * intros u x H HL. destruct (NB u x H) as [[-> ->]|[U X]]; auto.
        pose proof (A u x X HL). congruence.
      * exists th'. split. eapply nth_upd_same; eauto. split.
        destruct (tpc th'); simpl in *; auto; discriminate.
        eapply Hacq; eauto.
    + pose proof (cas_lk _ _ CS) as KK. split; [|split]; simpl; auto.
      * intros u x H HL. rewrite KK. destruct (NB u x H) as [[-> ->]|[U X]]; [congruence|].
        eapply A; eauto.
      * rewrite KK. destruct (lk (sh s)) as [u|] eqn:K; eauto.
        destruct C as (th0 & N0 & L0 & P0). exists th0. split; [|eauto].
        rewrite nth_upd_other; auto. intros ->. rewrite N in N0. inversion N0; subst. congruence.
Qed.

Lemma J_run s sched : J s -> J (run s sched).
Proof. revert s; induction sched; simpl; intros; auto. apply IHsched. apply J_step; auto. Qed.

Lemma J_init progs : (forall p, In p progs -> R (mkTh Idle p [] OSetPending) (sh (init progs))) ->
  F (sh (init progs)) -> J (init progs).
Proof.
  intros HR HF. split; [|split]; simpl.
  - intros t th H L. apply nth_error_In in H. apply in_map_iff in H. destruct H as (p & <- & _). discriminate.
  - intros t th H. apply nth_error_In in H. apply in_map_iff in H. destruct H as (p & <- & I). auto.
  - auto.
Qed.
End Generic.

(* ------------------------------------------------------------------------- *)
Ltac spl := repeat match goal with |- _ /\ _ => split end; auto.
(** The invariant *)
Section Inv.
Variable react : nat -> list ev -> list ract.
Variables rid rmsg : Z.
Variable ALL : list op.
Notation tstep := (tstep react rid rmsg).

Definition origin (c : Z) (d : option (list Z)) : Prop :=
  match d with
  | Some body => In (ORespondBytes c body) ALL
  | None => In (ORespondFail c) ALL
  end.
Fixpoint good (l : list ev) : Prop :=
  match l with
  | [] => True
  | e :: t => good t /\
      match e with
      | EvDelivered i m c d => i = rid /\ m = rmsg /\ origin c d /\ armed t = true /\ count is_delivered t = 0%nat
      | EvPending _ => pend_open t = true
      | EvRouted => pend_open t = true
      | EvInFly None => fly_last t = None
      | EvInFly (Some _) => fly_last t = None \/ fly_last t = Some None
      | EvNotify _ _ => count is_delivered t = 0%nat /\ armed t = true
      | EvChained _ => count is_delivered t = 0%nat
      | EvReset _ _ => count is_delivered t = 0%nat /\ armed t = true
      | EvUnchained _ => armed t = true
      | _ => True
      end
  end.
Definition nd (s : shared) := count is_delivered (tr s).
Definition nr (s : shared) := count is_reset (tr s).
Definition st012 (s : shared) : Prop := st s = 0 \/ st s = 1 \/ st s = 2.
Definition PO (s : shared) : Prop :=
  (st s = 0 -> pend_open (tr s) = true) /\ (st s = 1 -> fly_last (tr s) = None).
Definition N (s : shared) : Prop := nr s = 0%nat -> notified (tr s) = [].
Definition Wc (c : list nat) (s : shared) : Prop := nr s = 0%nat -> rev (notified (tr s)) ++ c = chained (tr s).
Definition Ac (c : list nat) (s : shared) : Prop := forall b, count (is_reset_by b) (tr s) = 0%nat ->
  (count (is_notify b) (tr s) + count_occ Nat.eq_dec c b = count (is_chained b) (tr s))%nat.
Definition gen (c : list nat) (s : shared) : Prop := Wc c s /\ Ac c s /\ PO s /\ good (tr s).

Definition F (s : shared) : Prop :=
  ((st012 s /\ nd s = 0%nat /\ N s) \/ (st s = 8 /\ nd s = 1%nat /\ ch s = [])) /\ gen (ch s) s.
Definition failed_done (s : shared) : Prop := (1 <= nd s)%nat \/ (1 <= nr s)%nat.
Definition Pre (s : shared) : Prop := st012 s /\ nd s = 0%nat /\ N s /\ gen (ch s) s.
Definition is_fail (o : op) := match o with ORespondFail _ => true | _ => false end.

Definition Walking (th : thread) (s : shared) : Prop :=
  is_resp (cur th) = true /\ origin (rcode s) (rbody s) /\ nd s = 0%nat /\ (st s = 4 -> armed (tr s) = true).
Definition At (b : nat) (s : shared) : Prop :=
  exists rest, ch s = b :: rest /\ gen rest s /\
    (st s = 4 \/ (st012 s /\ (1 <= nr s)%nat /\ (1 <= count (is_reset_by b) (tr s))%nat)).

Definition P (th : thread) (s : shared) : Prop :=
  In (cur th) ALL /\
  match tpc th with
  | CheckIF b => F s /\ is_fail (cur th) = false
  | CheckCB b => F s /\ is_fail (cur th) = false
  | CheckB c d => F s /\ cur th = ORespondBytes c d
  | CheckF c => F s /\ cur th = ORespondFail c
  | StoreIF b => Pre s /\ (st s = 1 \/ (st s = 2 /\ fly_last (tr s) = Some None)) /\ is_fail (cur th) = false
  | ChainIt b => Pre s /\ is_fail (cur th) = false
  | Prep c d => Pre s /\ origin c d /\ is_resp (cur th) = true
  | StorePrepared => Pre s /\ origin (rcode s) (rbody s) /\ is_resp (cur th) = true
  | Walk => Walking th s /\ st s = 4 /\ gen (ch s) s
  | React b _ => Walking th s /\ At b s
  | CheckSt b => Walking th s /\ At b s
  | Unchain b => Walking th s /\ At b s /\ st s = 4
  | Deliver => Walking th s /\ st s = 4 /\ ch s = [] /\ gen [] s
  | StorePerf => is_resp (cur th) = true /\ st s = 4 /\ ch s = [] /\ gen [] s /\ nd s = 1%nat
  | Unlock res => F s /\ (is_fail (cur th) = true -> failed_done s) /\
      (res = true -> st s = 8 -> is_resp (cur th) = true)
  | Panicked => exists b, Walking th s /\ At b s
  | _ => False
  end.

Definition R (th : thread) (s : shared) : Prop :=
  (forall o, In o (prog th) -> In o ALL) /\
  (forall c r, In (ORespondFail c, r) (dn th) -> failed_done s) /\
  match tpc th with
  | Idle => True
  | SF2 _ => In (cur th) ALL /\ is_fail (cur th) = false
  | LockIF b => In (cur th) ALL /\ is_fail (cur th) = false
  | LockCB b => In (cur th) ALL /\ is_fail (cur th) = false
  | LockB c d => In (cur th) ALL /\ cur th = ORespondBytes c d
  | LockF c => In (cur th) ALL /\ cur th = ORespondFail c
  | _ => True
  end.

Ltac unf := unfold F, Pre, gen, Wc, Ac, PO, N, nd, nr, st012, failed_done, Walking, At in *.

Lemma gen_cas c s s' : cas s s' -> gen c s -> gen c s'.
Proof.
  intros C (W & A & (O1 & O2) & G).
  destruct C as [s|s t E|s E|s t E|s E]; unfold gen, PO; spl; unfold Wc, Ac, nr in *; simpl; auto;
    unfold RsNew, RsPending, RsInFly in *; try (intros; congruence).
Qed.
Lemma st012_cas s s' : cas s s' -> st012 s -> st012 s'.
Proof. intros C. destruct C; unfold st012; simpl; auto. Qed.
Lemma nd_cas s s' : cas s s' -> nd s' = nd s.
Proof. intros C; destruct C; reflexivity. Qed.
Lemma nr_cas s s' : cas s s' -> nr s' = nr s.
Proof. intros C; destruct C; reflexivity. Qed.
Lemma ch_cas s s' : cas s s' -> ch s' = ch s.
Proof. intros C; destruct C; reflexivity. Qed.
Lemma N_cas s s' : cas s s' -> N s -> N s'.
Proof. intros C; destruct C; unfold N, nr; simpl; auto. Qed.
Lemma st_big_cas s s' k : cas s s' -> st s = k -> k <> 0 -> k <> 1 -> st s' = k.
Proof. intros C. destruct C; simpl; auto; unfold RsNew, RsPending in *; intros; congruence. Qed.
Lemma cas_not4 s s' : cas s s' -> st s' = 4 -> s' = log s EvRouted \/ s' = s.
Proof. intros C; destruct C; simpl; auto; discriminate. Qed.
Lemma rb_cas s s' : cas s s' -> rcode s' = rcode s /\ rbody s' = rbody s.
Proof. intros C; destruct C; auto. Qed.
Lemma resetby_cas s s' b : cas s s' -> count (is_reset_by b) (tr s') = count (is_reset_by b) (tr s).
Proof. intros C; destruct C; reflexivity. Qed.

Lemma F_cas s s' : cas s s' -> F s -> F s'.
Proof.
  intros C ((B & D & E) & G) || intros C (B & G).
  split; [|rewrite (ch_cas _ _ C); eapply gen_cas; eauto].
  destruct B as [(B & D & E)|(B & D & E)].
  - left. rewrite (nd_cas _ _ C). split; [eapply st012_cas; eauto|]. split; auto. eapply N_cas; eauto.
  - right. rewrite (nd_cas _ _ C), (ch_cas _ _ C). split; auto. eapply st_big_cas; eauto; discriminate.
Qed.
Lemma Pre_cas s s' : cas s s' -> Pre s -> Pre s'.
Proof.
  intros C (B & D & E & G). unfold Pre. rewrite (nd_cas _ _ C), (ch_cas _ _ C).
  split; [eapply st012_cas; eauto|]. split; auto. split; [eapply N_cas; eauto|]. eapply gen_cas; eauto.
Qed.
Lemma Walking_cas th s s' : cas s s' -> Walking th s -> Walking th s'.
Proof.
  intros C (A0 & A & B & D). unfold Walking. destruct (rb_cas _ _ C) as [-> ->]. rewrite (nd_cas _ _ C).
  split; auto. split; auto. split; auto. intros E. destruct (cas_not4 _ _ C E); subst s'; simpl in *; auto.
Qed.
Lemma At_cas b s s' : cas s s' -> At b s -> At b s'.
Proof.
  intros C (rest & A & G & D). exists rest. rewrite (ch_cas _ _ C), (nr_cas _ _ C), (resetby_cas _ _ _ C).
  split; auto. split; [eapply gen_cas; eauto|]. destruct D as [D|(D1 & D2)].
  - left. eapply st_big_cas; eauto; discriminate.
  - right. split; auto. eapply st012_cas; eauto.
Qed.
Lemma P_cas s s' th : cas s s' -> P th s -> P th s'.
Proof.
  intros C (I & H). split; auto.
  destruct (tpc th); auto.
  - destruct H; split; auto. eapply F_cas; eauto.
  - destruct H; split; auto. eapply F_cas; eauto.
  - destruct H; split; auto. eapply F_cas; eauto.
  - destruct H; split; auto. eapply F_cas; eauto.
  - destruct H as (A & B & D). split; [eapply Pre_cas; eauto|]. split; auto.
    destruct C as [s|s t E|s E|s t E|s E]; simpl; auto; unfold RsNew, RsPending in *;
      destruct B as [B|[B B']]; auto; congruence.
  - destruct H; split; auto. eapply Pre_cas; eauto.
  - destruct H; split; auto. eapply Pre_cas; eauto.
  - destruct H; destruct (rb_cas _ _ C) as [-> ->]. split; auto. eapply Pre_cas; eauto.
  - destruct H as (A & B & D). split; [eapply Walking_cas; eauto|].
    split. eapply st_big_cas; eauto; discriminate. rewrite (ch_cas _ _ C). eapply gen_cas; eauto.
  - destruct H as (A & B). split; [eapply Walking_cas; eauto|eapply At_cas; eauto].
  - destruct H as (A & B). split; [eapply Walking_cas; eauto|eapply At_cas; eauto].
  - destruct H as (A & B & D). split; [eapply Walking_cas; eauto|]. split; [eapply At_cas; eauto|].
    eapply st_big_cas; eauto; discriminate.
  - destruct H as (A & B & D & E). split; [eapply Walking_cas; eauto|].
    split. eapply st_big_cas; eauto; discriminate. rewrite (ch_cas _ _ C). split; auto. eapply gen_cas; eauto.
  - destruct H as (A0 & A & B & D & E). 
    split; auto. split. eapply st_big_cas; eauto; discriminate. rewrite (ch_cas _ _ C), (nd_cas _ _ C).
    split; auto. split; auto. eapply gen_cas; eauto.
  - destruct H as (H & H1 & H2). split. eapply F_cas; eauto. unfold failed_done. rewrite (nd_cas _ _ C), (nr_cas _ _ C).
    split; auto. intros X Y. apply H2; auto. destruct C; simpl in Y; auto; discriminate.
  - destruct H as (b & A & B). exists b. split; [eapply Walking_cas; eauto|eapply At_cas; eauto].
Qed.

Lemma gen_lk c s x : gen c (set_lk s x) <-> gen c s. Proof. reflexivity. Qed.
Lemma F_lk s x : F (set_lk s x) <-> F s. Proof. reflexivity. Qed.

Lemma acq_ok s t th s' th' : tstep s t th = Some (s', th') -> locked (tpc th) = false ->
  is_check (tpc th') = true -> lk s = None -> R th s -> F s -> P th' s'.
Proof.
  intros E L CK K (R1 & R2 & R3) HF. unfold RequestModel.tstep in E.
  destruct (tpc th) eqn:PC; try discriminate L.
  - destruct (prog th) as [|o rest]; [discriminate|].
    destruct o; repeat match type of E with context [if ?b then _ else _] => destruct b eqn:? end;
      inversion E; subst; discriminate.
  - destruct (st s =? RsPending); inversion E; subst; discriminate.
  - unfold acquire in E. rewrite K in E. inversion E; subst. unfold P; simpl. intuition.
  - unfold acquire in E. rewrite K in E. inversion E; subst. unfold P; simpl. intuition.
  - unfold acquire in E. rewrite K in E. inversion E; subst. unfold P; simpl. intuition.
  - unfold acquire in E. rewrite K in E. inversion E; subst. unfold P; simpl. intuition.
Qed.

Lemma F_pre s : F s -> st s <> 8 -> Pre s.
Proof. intros ([(A & B & C)|(A & B & C)] & G) X; [unfold Pre; auto|congruence]. Qed.
Lemma Pre_F s : Pre s -> F s.
Proof. intros (A & B & C & D). split; auto. Qed.

Ltac spw := repeat match goal with
  | |- _ /\ _ => split
  | |- Walking _ _ => unfold Walking
  | |- gen _ _ => unfold gen
  | |- PO _ => unfold PO
  | |- Pre _ => unfold Pre
  end; auto.
Lemma lock_ok s t th s' th' : tstep s t th = Some (s', th') ->
  locked (tpc th) = true -> lk s = Some t -> P th s -> R th s ->
  (locked (tpc th') = true /\ lk s' = Some t /\ P th' s') \/
  (locked (tpc th') = false /\ lk s' = None /\ F s').
Proof.
  intros E L K (I & H) (R1 & R2 & R3). unfold RequestModel.tstep in E. unfold P.
  destruct (tpc th) eqn:PC; try discriminate L.
  - (* CheckIF *) destruct H as [HF HC].
    destruct (st s =? RsPending) eqn:ES; inversion E; subst; left; simpl; spl.
    + apply Z.eqb_eq in ES. unfold RsPending in ES. apply F_pre; auto. rewrite ES; discriminate.
    + apply Z.eqb_eq in ES. auto.
    + intros; congruence.
    + intros; discriminate.
  - (* CheckCB *) destruct H as [HF HC].
    destruct ((st s =? RsNew) || (st s =? RsPending)) eqn:ES; inversion E; subst; left; simpl; spl.
    + apply F_pre; auto. intros X. rewrite X in ES. discriminate.
    + intros; congruence.
    + intros; discriminate.
  - (* CheckB *) destruct H as [HF HC].
    destruct (st s =? RsInFly) eqn:ES; inversion E; subst; left; simpl; spl.
    + apply F_pre; auto. intros X. rewrite X in ES. discriminate.
    + rewrite <- HC. auto.
    + rewrite HC; reflexivity.
    + rewrite HC. discriminate.
    + intros; discriminate.
  - (* CheckF *) destruct H as [HF HC].
    destruct (Z.land (st s) (Z.lor RsPrepared RsPerformed) =? 0) eqn:ES; inversion E; subst; left; simpl; spl.
    + apply F_pre; auto. intros X. rewrite X in ES. discriminate.
    + rewrite <- HC. auto.
    + rewrite HC; reflexivity.
    + intros _. destruct HF as ([(A & B & C)|(A & B & C)] & G); unfold failed_done; [|lia].
      destruct A as [A|[A|A]]; rewrite A in ES; discriminate.
    + intros; discriminate.
  - (* StoreIF *) destruct H as ((A & B & C & W & AA & (O1 & O2) & G) & D & HC). inversion E; subst. left; simpl.
    unfold Pre, gen, Wc, Ac, PO, N, st012, nd, nr in *; simpl in *; spl; try discriminate.
    destruct D as [D|[D D']]; auto.
  - (* ChainIt *) destruct H as ((A & B & C & W & AA & (O1 & O2) & G) & HC). inversion E; subst. left; simpl.
    split; auto. split; auto. split; auto.
    split; [|split; [intros; congruence|destruct A as [A|[A|A]]; rewrite A; discriminate]].
    apply Pre_F. unfold Pre, st012, N, gen, Wc, Ac, PO, nd, nr in *; simpl in *.
    spl.
    + intros X. rewrite <- (W X). rewrite (C X). reflexivity.
    + intros b0 X. specialize (AA b0 X).
      destruct (Nat.eq_dec b b0) as [->|NE].
      * rewrite Nat.eqb_refl. lia.
      * apply Nat.eqb_neq in NE. rewrite NE. lia.
  - (* Prep *) destruct H as ((A & B & C & W & AA & (O1 & O2) & G) & HO & HO'). inversion E; subst. left; simpl.
    unfold Pre, gen, Wc, Ac, PO, N, st012, nd, nr in *; simpl in *; spl.
  - (* StorePrepared *) destruct H as ((A & B & C & W & AA & (O1 & O2) & G) & HO & HO'). inversion E; subst. left; simpl.
    unfold Walking, Pre, gen, Wc, Ac, PO, N, st012, nd, nr in *; simpl in *; spl; discriminate.
  - (* Walk *) destruct H as ((W0 & W1 & W2 & W3) & ST & W & AA & (O1 & O2) & G).
    specialize (W3 ST).
    destruct (ch s) as [|b0 rest] eqn:CH; inversion E; subst; left; simpl.
    + spw.
    + split; auto. split; auto. split; auto. split. { spw. }
      exists rest. simpl. split; auto. split; [|auto].
      unfold gen, Wc, Ac, PO, nr, nd in *; simpl in *. spw.
      * intros X. rewrite <- app_assoc. simpl. auto.
      * intros b1 X. specialize (AA b1 X).
        destruct (Nat.eq_dec b0 b1) as [->|NE].
        -- rewrite Nat.eqb_refl. lia.
        -- apply Nat.eqb_neq in NE. rewrite NE. auto.
  - (* React *) destruct H as ((W0 & W1 & W2 & W3) & (rest & CH & (W & AA & (O1 & O2) & G) & ST)).
    destruct l as [|a l].
    + inversion E; subst. left; simpl. split; auto. split; auto. split; auto. split. spw.
      exists rest. spw.
    + destruct a.
      * destruct (st s =? RsPrepared) eqn:ES; inversion E; subst; left; simpl;
          [|spw; exists b; split; [unfold Walking; spw|exists rest; spw]].
        apply Z.eqb_eq in ES. unfold RsPrepared in ES. specialize (W3 ES).
        split; auto. split; auto. split; auto. split.
        { unfold Walking, nd; simpl. spw. discriminate. }
        exists rest. simpl. split; auto. split.
        { unfold gen, Wc, Ac, PO, nr in *; simpl. spw; try discriminate.
          intros b1 X. destruct (Nat.eqb b b1); [discriminate|]. auto. }
        right. unfold st012, nr; simpl. rewrite Nat.eqb_refl. spw; lia.
      * destruct (st s =? RsPrepared) eqn:ES; inversion E; subst; left; simpl;
          [|spw; exists b; split; [unfold Walking; spw|exists rest; spw]].
        apply Z.eqb_eq in ES. unfold RsPrepared in ES. specialize (W3 ES).
        split; auto. split; auto. split; auto. split.
        { unfold Walking, nd; simpl. spw. discriminate. }
        exists rest. simpl. split; auto. split.
        { unfold gen, Wc, Ac, PO, nr in *; simpl. spw; try discriminate.
          intros b1 X. destruct (Nat.eqb b b1); [discriminate|]. auto. }
        right. unfold st012, nr; simpl. rewrite Nat.eqb_refl. spw; lia.
      * destruct (st s =? RsPending) eqn:ES; inversion E; subst; left; simpl.
        -- split; auto. split; auto. split; auto. split.
           { unfold Walking, nd; simpl. spw. discriminate. }
           exists rest. simpl. split; auto. split.
           { unfold gen, Wc, Ac, PO, nr in *; simpl. spw; try discriminate. apply O2. apply Z.eqb_eq. auto. }
           apply Z.eqb_eq in ES. unfold RsPending in ES.
           destruct ST as [ST|(S1 & S2 & S3)]; [congruence|]. right. unfold st012; simpl. auto.
        -- split; auto. split; auto. split; auto. split. spw.
           exists rest. spw.
  - (* CheckSt *) destruct H as ((W0 & W1 & W2 & W3) & (rest & CH & (W & AA & (O1 & O2) & G) & ST)).
    destruct (st s =? RsPrepared) eqn:ES; inversion E; subst; left; simpl.
    + split; auto. split; auto. split; auto. split. spw.
      apply Z.eqb_eq in ES. split; auto. exists rest. spw.
    + apply Z.eqb_neq in ES. destruct ST as [ST|(S1 & S2 & S3)]; [unfold RsPrepared in ES; congruence|].
      split; auto. split; auto. split; auto. split.
      * split. left. split; auto. split; auto. { unfold N; intros; lia. }
        unfold gen, Wc, Ac in *. rewrite CH. spw; [intros; lia|].
        intros b1 X. specialize (AA b1 X). simpl. destruct (Nat.eq_dec b b1) as [->|NE]; [lia|auto].
      * split. intros _. right. auto. auto.
  - (* Unchain *) destruct H as ((W0 & W1 & W2 & W3) & (rest & CH & (W & AA & (O1 & O2) & G) & _) & ST).
    inversion E; subst; left; simpl. rewrite CH. simpl.
    split; auto. split; auto. split; auto. split. { unfold Walking; simpl. spw. }
    split; auto. unfold gen, Wc, Ac, PO in *; simpl. spw.
  - (* Deliver *) destruct H as ((W0 & W1 & W2 & W3) & ST & CH & (W & AA & (O1 & O2) & G)).
    inversion E; subst; left; simpl. unfold gen, Wc, Ac, PO, nd, nr in *; simpl. spw; try congruence.
  - (* StorePerf *) destruct H as (W0 & ST & CH & (W & AA & (O1 & O2) & G) & D).
    inversion E; subst; left; simpl. split; auto. split; auto. split; auto. split.
    + split. right. auto. simpl. rewrite CH. unfold gen, Wc, Ac, PO, nr in *; simpl. spw; discriminate.
    + split; auto. intros _. left. unfold nd in *; simpl in *. lia.
  - (* Unlock *) destruct H as (HF & HD & HD'). inversion E; subst. right. simpl. auto.
  - discriminate.
Qed.

Lemma trace_grows s t th s' th' : tstep s t th = Some (s', th') -> exists x, tr s' = x ++ tr s.
Proof.
  intros E. unfold RequestModel.tstep, acquire in E.
  destruct (tpc th); try discriminate;
    repeat match type of E with
      | context [match prog th with _ => _ end] => destruct (prog th) as [|[]]; try discriminate
      | context [match lk s with _ => _ end] => destruct (lk s); try discriminate
      | context [match ch s with _ => _ end] => destruct (ch s)
      | context [match ?l with [] => _ | _ :: _ => _ end] => destruct l as [|[]]
      | context [if ?b then _ else _] => destruct b
      end; inversion E; subst; simpl;
    first [exists []; reflexivity | eexists [_]; reflexivity | eexists [_; _]; reflexivity].
Qed.
Lemma count_app f a b : count f (a ++ b) = (count f a + count f b)%nat.
Proof. induction a; simpl; auto. rewrite IHa. lia. Qed.
Lemma failed_done_mono s t th s' th' : tstep s t th = Some (s', th') -> failed_done s -> failed_done s'.
Proof.
  intros E. destruct (trace_grows _ _ _ _ _ E) as [x X]. unfold failed_done, nd, nr. rewrite X, !count_app. lia.
Qed.

Lemma R_own s t th s' th' : tstep s t th = Some (s', th') -> R th s ->
  (locked (tpc th) = true -> P th s) -> R th' s'.
Proof.
  intros E (R1 & R2 & R3) HP.
  pose proof (failed_done_mono _ _ _ _ _ E) as M.
  assert (RI : forall o, In o (prog th') -> In o ALL).
  { unfold RequestModel.tstep, acquire in E.
    destruct (tpc th); try discriminate;
    repeat match type of E with
      | context [match prog th with _ => _ end] => destruct (prog th) as [|[]] eqn:?; try discriminate
      | context [match lk s with _ => _ end] => destruct (lk s); try discriminate
      | context [match ch s with _ => _ end] => destruct (ch s)
      | context [match ?l with [] => _ | _ :: _ => _ end] => destruct l as [|[]]
      | context [if ?b then _ else _] => destruct b
      end; inversion E; subst; simpl; auto; intros; apply R1; simpl; auto; congruence. }
  split; auto. clear RI.
  destruct (locked (tpc th)) eqn:L.
  - (* locked: only Unlock changes dn *)
    specialize (HP eq_refl). destruct HP as (I & H).
    unfold RequestModel.tstep in E. destruct (tpc th) eqn:PC; try discriminate;
    repeat match type of E with
      | context [match ch s with _ => _ end] => destruct (ch s)
      | context [match ?l with [] => _ | _ :: _ => _ end] => destruct l as [|[]]
      | context [if ?b then _ else _] => destruct b
      end; inversion E; subst; simpl;
    (split; [intros c r X; try (apply M; eapply R2; eauto; fail)|auto]).
    simpl in X. destruct X as [X|X]; [|apply M; eapply R2; eauto].
    apply M. inversion X; subst. apply H. rewrite H1. auto.
  - unfold RequestModel.tstep, acquire in E. destruct (tpc th) eqn:PC; try discriminate;
    repeat match type of E with
      | context [match prog th with _ => _ end] => destruct (prog th) as [|[]] eqn:?; try discriminate
      | context [match lk s with _ => _ end] => destruct (lk s); try discriminate
      | context [if ?b then _ else _] => destruct b
      end; inversion E; subst; simpl;
    (split; [intros c0 r0 X; simpl in X; try (apply M; eapply R2; eauto; fail);
       try (destruct X as [X|X]; [|apply M; eapply R2; eauto];
            first [discriminate X | (inversion X; subst; destruct R3 as [_ R3]; destruct (cur th); discriminate)])
      |auto; try (split; auto; apply R1; simpl; auto)]).
Qed.

Lemma R_other s t th s' th' th2 : tstep s t th = Some (s', th') -> R th2 s -> R th2 s'.
Proof.
  intros E (R1 & R2 & R3). split; auto. split; auto.
  intros. eapply failed_done_mono; eauto.
Qed.

Lemma inv_run progs sched : (forall p, In p progs -> forall o, In o p -> In o ALL) ->
  J F P R (run react rid rmsg (init progs) sched).
Proof.
  intros HA. apply J_run.
  - apply F_cas.
  - intros; eapply P_cas; eauto.
  - intros; eapply acq_ok; eauto.
  - intros; eapply lock_ok; eauto.
  - intros; eapply R_own; eauto.
  - intros; eapply R_other; eauto.
  - apply J_init.
    + intros p Hp. unfold R; simpl. split; [intros; eapply HA; eauto|]. split; auto. intros; contradiction.
    + unfold F, st012, nd, N, nr, gen, Wc, Ac, PO, RsNew; simpl. split; [left; auto|]. repeat split; auto.
Qed.

(** consequences that hold whoever has the lock *)
Lemma At_le b s x : At b s -> count (is_reset_by x) (tr s) = 0%nat ->
  (count (is_notify x) (tr s) <= count (is_chained x) (tr s))%nat.
Proof. intros (rest & _ & (_ & A & _) & _) H. specialize (A x H). lia. Qed.
Lemma gen_le c s x : gen c s -> count (is_reset_by x) (tr s) = 0%nat ->
  (count (is_notify x) (tr s) <= count (is_chained x) (tr s))%nat.
Proof. intros (_ & A & _) H. specialize (A x H). lia. Qed.
Lemma F_univ s : F s -> (nd s <= 1)%nat /\ good (tr s) /\ (nd s = 1%nat -> gen [] s) /\ (st s = 8 -> nd s = 1%nat) /\
  (forall x, count (is_reset_by x) (tr s) = 0%nat -> (count (is_notify x) (tr s) <= count (is_chained x) (tr s))%nat).
Proof.
  intros ([(A & B & C)|(A & B & C)] & G); pose proof G as (G1 & G2 & G3 & G4).
  - spl; try lia. intros E. destruct A as [A|[A|A]]; congruence. intros; eapply gen_le; eauto.
  - spl; try lia. intros _. rewrite C in G. auto. intros; eapply gen_le; eauto.
Qed.
Lemma At_univ th b s : Walking th s -> At b s -> (nd s <= 1)%nat /\ good (tr s) /\ (nd s = 1%nat -> gen [] s) /\ (st s = 8 -> nd s = 1%nat) /\
  (forall x, count (is_reset_by x) (tr s) = 0%nat -> (count (is_notify x) (tr s) <= count (is_chained x) (tr s))%nat).
Proof.
  intros (A & B & C & D) X. pose proof X as (rest & E & (G1 & G2 & G3 & G4) & H).
  spl; try lia. destruct H as [H|([H|[H|H]] & _)]; congruence. intros; eapply At_le; eauto.
Qed.
Lemma J_univ s : J F P R s ->
  (nd (sh s) <= 1)%nat /\ good (tr (sh s)) /\ (nd (sh s) = 1%nat -> gen [] (sh s)) /\ (st (sh s) = 8 -> nd (sh s) = 1%nat) /\
  (forall x, count (is_reset_by x) (tr (sh s)) = 0%nat ->
     (count (is_notify x) (tr (sh s)) <= count (is_chained x) (tr (sh s)))%nat).
Proof.
  intros (_ & _ & C). destruct (lk (sh s)) as [t|]; [|apply F_univ; auto].
  destruct C as (th & N0 & L & I & H). remember (sh s) as h.
  destruct (tpc th); try contradiction;
    repeat match goal with
    | H : _ /\ _ |- _ => destruct H
    | H : F _ |- _ => apply F_univ in H; assumption
    | H : Pre _ |- _ => apply Pre_F, F_univ in H; assumption
    | H : Walking _ _, H' : At _ _ |- _ => eapply At_univ; eassumption
    | H : exists _, _ |- _ => destruct H
    end.
  - destruct H as (A & B & C & D). pose proof H1 as (G1 & G2 & G3 & G4).
    spl; try lia; try congruence. intros; eapply gen_le; eauto.
  - destruct H as (A & B & C & D). pose proof H2 as (G1 & G2 & G3 & G4).
    spl; try lia; try congruence. intros; eapply gen_le; eauto.
  - pose proof H2 as (G1 & G2 & G3 & G4).
    spl; try lia; try congruence. intros; eapply gen_le; eauto.
Qed.

(** nothing happens to a performed request *)
Lemma inert_step s t th h th' : J F P R s -> st (sh s) = 8 ->
  nth_error (ths s) t = Some th -> tstep (sh s) t th = Some (h, th') ->
  st h = 8 /\ tr h = tr (sh s) /\
  (dn th' = dn th \/ exists o r, dn th' = (o, r) :: dn th /\ (r = true -> is_resp o = true)).
Proof.
  intros (A & B & C) S N0 E.
  destruct (locked (tpc th)) eqn:L.
  - pose proof (A _ _ N0 L) as K. rewrite K in C. destruct C as (th0 & N1 & _ & I & H).
    rewrite N0 in N1. inversion N1; subst th0. unfold RequestModel.tstep in E. rewrite S in E.
    destruct (tpc th); try discriminate L; simpl in E;
      try (inversion E; subst; simpl; auto; fail);
      try (exfalso; repeat match goal with
        | H : _ /\ _ |- _ => destruct H
        | H : Pre _ |- _ => destruct H as ([H|[H|H]] & _); congruence
        | H : At _ _ |- _ => destruct H as (? & _ & _ & [H|([H|[H|H]] & _)]); congruence
        end; congruence).
    + inversion E; subst; simpl. destruct H as (_ & _ & H). split; auto. split; auto. right. eauto 10.
  - unfold RequestModel.tstep, acquire in E. rewrite S in E.
    destruct (tpc th); try discriminate L; try discriminate.
    + destruct (prog th) as [|[]]; try discriminate; simpl in E; inversion E; subst; simpl; split; auto; split; auto;
        right; eexists _, _; split; eauto; discriminate.
    + simpl in E. inversion E; subst; simpl. split; auto; split; auto; right; eexists _, _; split; eauto; discriminate.
    + destruct (lk (sh s)); inversion E; subst; simpl; auto.
    + destruct (lk (sh s)); inversion E; subst; simpl; auto.
    + destruct (lk (sh s)); inversion E; subst; simpl; auto.
    + destruct (lk (sh s)); inversion E; subst; simpl; auto.
Qed.

Lemma progress s : J F P R s ->
  (exists t th, nth_error (ths s) t = Some th /\ tpc th = Panicked) \/
  (forall t th, nth_error (ths s) t = Some th -> tpc th = Idle /\ prog th = []) \/
  (exists t th, nth_error (ths s) t = Some th /\ tstep (sh s) t th <> None).
Proof.
  intros (A & B & C). destruct (lk (sh s)) as [t|] eqn:K.
  - destruct C as (th & N0 & L & _). destruct (tpc th) eqn:PC; try discriminate L;
      try (right; right; exists t, th; split; auto; unfold RequestModel.tstep; rewrite PC;
        repeat match goal with
        | |- context [match ch (sh s) with _ => _ end] => destruct (ch (sh s))
        | |- context [match ?l with [] => _ | _ :: _ => _ end] => destruct l as [|[]]
        | |- context [if ?b then _ else _] => destruct b
        end; discriminate).
    left. eauto.
  - assert (D : forall l i, (forall t th, nth_error l t = Some th -> nth_error (ths s) (i + t) = Some th) ->
      (forall t th, nth_error l t = Some th -> tpc th = Idle /\ prog th = []) \/
      (exists t th, nth_error (ths s) t = Some th /\ tstep (sh s) t th <> None)).
    { induction l as [|th l IH]; intros i H.
      - left. intros [|t] th E; discriminate.
      - destruct (IH (S i)) as [IHl|IHr]; auto.
        { intros t th' E. replace (S i + t)%nat with (i + S t)%nat by lia. apply H. auto. }
        pose proof (H 0%nat th eq_refl) as HH. rewrite Nat.add_0_r in HH.
        destruct (tstep (sh s) i th) eqn:E; [right; exists i, th; split; auto; congruence|].
        left. intros [|t] th' E'; [|eapply IHl; eauto]. simpl in E'. inversion E'; subst th'.
        destruct (locked (tpc th)) eqn:L; [pose proof (A _ _ HH L); congruence|].
        unfold RequestModel.tstep, acquire in E. rewrite K in E.
        destruct (tpc th); try discriminate.
        + destruct (prog th) as [|[]]; auto; try discriminate; destruct (st (sh s) =? _); discriminate.
        + destruct (st (sh s) =? _); discriminate. }
    right. apply (D (ths s) 0%nat). auto.
Qed.
End Inv.

(* ------------------------------------------------------------------------- *)
(** Facts about good traces *)
Section Good.
Variables rid rmsg : Z.
Variable ALL : list op.
Notation good := (good rid rmsg ALL).

Lemma good_app a b : good (a ++ b) -> good b.
Proof. induction a; simpl; auto. intros [H _]; auto. Qed.
Lemma good_mid a e b : good (a ++ e :: b) -> good (e :: b).
Proof. apply good_app. Qed.
Lemma pend_open_split a t b : pend_open (a ++ EvPending t :: b) = true -> (1 <= count is_reset_new a)%nat.
Proof.
  induction a as [|e a IH]; simpl; [discriminate|].
  destruct e as [?|?|?| |? ?|? [|]|?|? ? ? ?|?| ]; simpl; auto; try discriminate; lia.
Qed.
Lemma fly_last_split a x b : count reopens a = 0%nat -> exists y, fly_last (a ++ EvInFly x :: b) = Some y.
Proof.
  induction a as [|e a IH]; simpl; [eauto|].
  destruct e as [?|?|?| |? ?|? [|]|?|? ? ? ?|?| ]; simpl; eauto; try discriminate.
Qed.
Lemma pend_count l : good l -> (count is_pending l <= 1 + count is_reset_new l)%nat /\
   (pend_open l = true -> (count is_pending l <= count is_reset_new l)%nat).
Proof.
  induction l as [|e l IH]; simpl; [lia|]. intros [G H]. destruct (IH G) as [I1 I2].
  destruct e as [?|?|?| |? ?|? [|]|?|? ? ? ?|?| ]; simpl; split; try discriminate; try lia;
    try (intros X; specialize (I2 X); lia); try (specialize (I2 H); lia).
Qed.
Lemma fly_count l : good l ->
  (count is_nilfly l <= count reopens l + 1)%nat /\
  (fly_last l = None -> (count is_nilfly l <= count reopens l)%nat).
Proof.
  induction l as [|e l IH]; simpl; [lia|]. intros [G H]. destruct (IH G) as [I1 I2].
  destruct e as [?|[?|]|?| |? ?|? [|]|?|? ? ? ?|?| ]; simpl; split; try discriminate; try lia;
    try (intros X; specialize (I2 X); lia); try (specialize (I2 H); lia).
Qed.
Lemma armed_split l : armed l = true -> exists x y, l = x ++ EvPrepared :: y /\ count is_reset x = 0%nat.
Proof.
  induction l as [|e l IH]; simpl; [discriminate|].
  destruct e as [?|?|?| |? ?|? ?|?|? ? ? ?|?| ]; intros H; try discriminate;
   try (destruct (IH H) as (x & y & -> & Z0); eexists (_ :: x), y; split; [reflexivity|exact Z0]).
  exists [], l. auto.
Qed.
Lemma count_in f l : (1 <= count f l)%nat <-> exists e, In e l /\ f e = true.
Proof.
  induction l as [|e l IH]; simpl; split; intros H; try lia.
  - destruct H as (? & [] & _).
  - destruct (f e) eqn:E; [exists e; auto|]. apply IH in H. destruct H as (x & A & B). eauto.
  - destruct H as (x & [->|A] & B); [rewrite B; lia|]. assert (1 <= count f l)%nat by (apply IH; eauto). lia.
Qed.
Lemma no_after l : good l -> forall a i m c d b, l = a ++ EvDelivered i m c d :: b ->
  forall e, In e a -> is_delivered e = false /\ is_reset e = false /\ (forall x, is_notify x e = false) /\ (forall x, is_chained x e = false).
Proof.
  intros G a i m c d b E e I. subst. apply in_split in I. destruct I as (x & y & ->).
  rewrite <- app_assoc in G. apply good_app in G. simpl in G. destruct G as [G H].
  assert (K : count is_delivered (y ++ EvDelivered i m c d :: b) <> 0%nat).
  { rewrite count_app. simpl. lia. }
  destruct e; simpl; auto; try (destruct H as [H _]; contradiction); try contradiction.
  destruct H as (_ & _ & _ & _ & H); contradiction.
Qed.
End Good.

(* ------------------------------------------------------------------------- *)
(** Sums over threads *)
Section Sums.
Variable react : nat -> list ev -> list ract.
Variables rid rmsg : Z.
Notation tstep := (tstep react rid rmsg).
Notation step := (step react rid rmsg).
Notation run := (run react rid rmsg).
Lemma sum_upd f l t x y : nth_error l t = Some x -> sum f (upd l t y) = sum f l - f x + f y.
Proof.
  revert t; induction l as [|a l IH]; intros [|t]; simpl; intros E; try discriminate.
  - inversion E; subst. lia.
  - rewrite (IH _ E). lia.
Qed.
Lemma sum_mono f g : (forall s t th s' th', tstep s t th = Some (s', th') -> f th' + g (tr s') <= f th + g (tr s)) ->
  forall sched s, sum f (ths (run s sched)) + g (tr (sh (run s sched))) <= sum f (ths s) + g (tr (sh s)).
Proof.
  intros H. induction sched as [|t sched IH]; intros s; simpl; [lia|].
  eapply Z.le_trans; [apply IH|]. unfold RequestModel.step.
  destruct (nth_error (ths s) t) as [th|] eqn:N; [|lia].
  destruct (tstep (sh s) t th) as [[h th']|] eqn:E; [|lia].
  simpl. rewrite (sum_upd _ _ _ _ _ N). specialize (H _ _ _ _ _ E). lia.
Qed.
Lemma sum_nonneg f l : (forall x, 0 <= f x) -> 0 <= sum f l.
Proof. intros H; induction l; simpl; [lia|]. specialize (H a). lia. Qed.
Lemma sum_init f progs : sum f (ths (init progs)) = fold_right Z.add 0 (map (fun p => f (mkTh Idle p [] OSetPending)) progs).
Proof. unfold init; simpl. induction progs; simpl; auto. rewrite IHprogs. auto. Qed.
End Sums.

Ltac tstep_cases E th s :=
  unfold tstep, acquire in E;
  destruct (tpc th) eqn:?PC; try discriminate E;
    repeat match type of E with
      | context [match prog th with _ => _ end] => destruct (prog th) as [|[]] eqn:?PR; try discriminate E
      | context [match lk s with _ => _ end] => destruct (lk s); try discriminate E
      | context [match ch s with _ => _ end] => destruct (ch s)
      | context [match ?l with [] => _ | _ :: _ => _ end] => destruct l as [|[]]
      | context [if ?b then _ else _] => destruct b eqn:?
      end; inversion E; subst; clear E.

Definition zc (f : ev -> bool) (l : list ev) : Z := Z.of_nat (count f l).
Lemma zc_cons f e l : zc f (e :: l) = (if f e then 1 else 0) + zc f l.
Proof. unfold zc; simpl. destruct (f e); lia. Qed.

Lemma results_nonneg f th : 0 <= results f th.
Proof. unfold results. induction (dn th); simpl; [lia|]. destruct (f _ _); lia. Qed.

Definition is_sf2 (th : thread) : Z := match tpc th with SF2 _ => 1 | _ => 0 end.
Definition pc_uses (b : nat) (p : pc) : Z :=
  match p with
  | LockIF b' | LockCB b' | CheckIF b' | CheckCB b' | StoreIF b' | ChainIt b' => if Nat.eqb b' b then 1 else 0
  | _ => 0
  end.
Section Counts.
Variable react : nat -> list ev -> list ract.
Variables rid rmsg : Z.
Notation tstep := (tstep react rid rmsg).

Definition busy_with (f : op -> bool -> bool) (th : thread) : Z :=
  match tpc th with Idle => 0 | _ => if f (cur th) true then 1 else 0 end.
Lemma results_ret f th r : results f (ret th r) = (if f (cur th) r then 1 else 0) + results f th.
Proof. reflexivity. Qed.

Ltac fin th := unfold busy_with, is_sf2, results in *;
  repeat match goal with H : tpc _ = _ |- _ => rewrite H | H : prog _ = _ |- _ => rewrite H end;
  cbn [ret goto tpc prog dn cur log set_st set_lk set_ch tr st lk ch rcode rbody fold_right fst snd uses pc_uses op_uses];
  try rewrite !zc_cons;
  try match goal with |- context [fold_right ?f 0 (dn th)] => generalize (fold_right f 0 (dn th)); intros ? end;
  destruct (cur th); cbn [pend_true nilfly_true is_pending is_nilfly is_run is_chained];
  repeat match goal with |- context [if ?b then _ else _] => destruct b end; try lia.

Lemma pend_results_step s t th s' th' : tstep s t th = Some (s', th') ->
  (results pend_true th' + busy_with pend_true th') + - zc is_pending (tr s') <=
  (results pend_true th + busy_with pend_true th) + - zc is_pending (tr s).
Proof. intros E. tstep_cases E th s; fin th. Qed.
Lemma nilfly_results_step s t th s' th' : tstep s t th = Some (s', th') ->
  (results nilfly_true th' + busy_with nilfly_true th') + - zc is_nilfly (tr s') <=
  (results nilfly_true th + busy_with nilfly_true th) + - zc is_nilfly (tr s).
Proof. intros E. tstep_cases E th s; fin th. Qed.
Lemma run_step s t th s' th' : tstep s t th = Some (s', th') ->
  is_sf2 th' + (zc is_run (tr s') - zc is_pending (tr s')) <= is_sf2 th + (zc is_run (tr s) - zc is_pending (tr s)).
Proof. intros E. tstep_cases E th s; fin th. Qed.
Lemma uses_step b s t th s' th' : tstep s t th = Some (s', th') ->
  (uses b (prog th') + pc_uses b (tpc th')) + zc (is_chained b) (tr s') <=
  (uses b (prog th) + pc_uses b (tpc th)) + zc (is_chained b) (tr s).
Proof. intros E. unfold uses. tstep_cases E th s; fin th. Qed.
End Counts.

(* ------------------------------------------------------------------------- *)
Section More.
Variable react : nat -> list ev -> list ract.
Variables rid rmsg : Z.
Notation tstep := (tstep react rid rmsg).
Notation step := (step react rid rmsg).
Notation run := (run react rid rmsg).

(** plain per-thread invariants *)
Lemma inv_plain (K : thread -> list ev -> Prop) (T : list ev -> Prop) :
  (forall s t th s' th', tstep s t th = Some (s', th') -> K th (tr s) -> T (tr s) -> K th' (tr s') /\ T (tr s')) ->
  (forall x l th, K th l -> K th (x ++ l)) ->
  forall sched s, (forall t th, nth_error (ths s) t = Some th -> K th (tr (sh s))) -> T (tr (sh s)) ->
  (forall t th, nth_error (ths (run s sched)) t = Some th -> K th (tr (sh (run s sched)))) /\ T (tr (sh (run s sched))).
Proof.
  intros H M. induction sched as [|t sched IH]; intros s A B; simpl; [auto|].
  assert (C : (forall u th, nth_error (ths (step s t)) u = Some th -> K th (tr (sh (step s t)))) /\ T (tr (sh (step s t)))).
  { unfold RequestModel.step. destruct (nth_error (ths s) t) as [th|] eqn:N; [|auto].
    destruct (tstep (sh s) t th) as [[h th']|] eqn:E; [|auto]. simpl.
    destruct (H _ _ _ _ _ E (A _ _ N) B) as [H1 H2]. split; auto.
    intros u x X. destruct (Nat.eq_dec u t) as [->|NE].
    - rewrite (nth_upd_same _ _ _ _ N) in X. inversion X; subst; auto.
    - rewrite nth_upd_other in X by auto. destruct (trace_grows _ _ _ _ _ _ _ _ E) as [y ->]. eauto. }
  destruct C as [C1 C2]. apply IH; auto.
Qed.

Lemma no_reset_by b progs sched : (forall l, react b l = []) ->
  count (is_reset_by b) (tr (sh (run (init progs) sched))) = 0%nat.
Proof.
  intros HR.
  apply (inv_plain (fun th _ => match tpc th with React b' l => b' = b -> l = [] | _ => True end)
                   (fun l => count (is_reset_by b) l = 0%nat)); auto.
  - intros s t th s' th' E K T.
    unfold RequestModel.tstep, acquire in E; destruct (tpc th) eqn:PC; try discriminate E.
    1: destruct (prog th) as [|[]]; try discriminate E;
       repeat match type of E with context [if ?b then _ else _] => destruct b eqn:? end; inversion E; subst; simpl; auto.
    all: repeat match type of E with
      | context [match lk ?z with _ => _ end] => destruct (lk z); try discriminate E
      | context [match ch ?z with _ => _ end] => destruct (ch z)
      | context [match ?l with [] => _ | _ :: _ => _ end] => destruct l as [|[]]
      | context [if ?b then _ else _] => destruct b eqn:?
      end; inversion E; subst; simpl; auto.
    + split; auto. intros ->. auto.
    + split; [intros X; specialize (K X); discriminate|].
      destruct (Nat.eqb_spec b0 b); [specialize (K e); discriminate|]. auto.
    + split; [intros X; specialize (K X); discriminate|].
      destruct (Nat.eqb_spec b0 b); [specialize (K e); discriminate|]. auto.
    + split; auto. intros X. specialize (K X). discriminate.
    + split; auto. intros X. specialize (K X). discriminate.
  - intros t th H. apply nth_error_In in H. unfold init in H; simpl in H. apply in_map_iff in H.
    destruct H as (p & <- & _). exact I.
Qed.

Fixpoint run_ok (l : list ev) : Prop :=
  match l with
  | [] => True
  | EvRun u :: t => In (EvPending u) t /\ run_ok t
  | _ :: t => run_ok t
  end.
Lemma run_tid progs sched : run_ok (tr (sh (run (init progs) sched))).
Proof.
  apply (inv_plain (fun th l => match tpc th with SF2 u => In (EvPending u) l | _ => True end) run_ok).
  - intros s t th s' th' E K T.
    unfold RequestModel.tstep, acquire in E; destruct (tpc th) eqn:PC; try discriminate E.
    1: destruct (prog th) as [|[]]; try discriminate E;
       repeat match type of E with context [if ?b then _ else _] => destruct b eqn:? end; inversion E; subst; simpl; auto.
    all: repeat match type of E with
      | context [match lk ?z with _ => _ end] => destruct (lk z); try discriminate E
      | context [match ch ?z with _ => _ end] => destruct (ch z)
      | context [match ?l with [] => _ | _ :: _ => _ end] => destruct l as [|[]]
      | context [if ?b then _ else _] => destruct b eqn:?
      end; inversion E; subst; simpl; auto.
  - intros x l th H. destruct (tpc th); auto. apply in_or_app. auto.
  - intros t th H. apply nth_error_In in H. unfold init in H; simpl in H. apply in_map_iff in H.
    destruct H as (p & <- & _). exact I.
  - exact I.
Qed.
Lemma run_ok_split a u b : run_ok (a ++ EvRun u :: b) -> In (EvPending u) b.
Proof. induction a as [|e a IH]; simpl; [tauto|]. destruct e; tauto. Qed.

Lemma run_app s a b : run s (a ++ b) = run (run s a) b.
Proof. unfold RequestModel.run. apply fold_left_app. Qed.

(** one goroutine running alone *)
Lemma solo_step s t th h th' : nth_error (ths s) t = Some th -> tstep (sh s) t th = Some (h, th') ->
  step s t = mkSys h (upd (ths s) t th').
Proof. intros A B. unfold RequestModel.step. rewrite A, B. auto. Qed.

Lemma solo_walk l : forall s t th, nth_error (ths s) t = Some th -> tpc th = Walk -> st (sh s) = 4 -> ch (sh s) = l ->
  (forall b x, In b l -> react b x = []) ->
  exists n, let s' := run s (repeat t n) in
    st (sh s') = 8 /\ lk (sh s') = None /\ ch (sh s') = [] /\
    exists y, tr (sh s') = EvDelivered rid rmsg (rcode (sh s)) (rbody (sh s)) :: y ++ tr (sh s) /\
              rev (notified y) = l /\ count is_delivered y = 0%nat.
Proof.
  induction l as [|b l IH]; intros s t th N PC ST CH HR.
  - set (s1 := mkSys (sh s) (upd (ths s) t (goto th Deliver))).
    assert (E1 : step s t = s1).
    { erewrite solo_step; [reflexivity|eauto|]. unfold RequestModel.tstep. rewrite PC, CH. reflexivity. }
    assert (N1 : nth_error (ths s1) t = Some (goto th Deliver)) by (simpl; eapply nth_upd_same; eauto).
    set (s2 := mkSys (log (sh s) (EvDelivered rid rmsg (rcode (sh s)) (rbody (sh s)))) (upd (ths s1) t (goto th StorePerf))).
    assert (E2 : step s1 t = s2).
    { erewrite solo_step; [reflexivity|eauto|]. reflexivity. }
    assert (N2 : nth_error (ths s2) t = Some (goto th StorePerf)) by (simpl; eapply nth_upd_same; eauto).
    set (s3 := mkSys (set_st (sh s2) RsPerformed) (upd (ths s2) t (goto th (Unlock true)))).
    assert (E3 : step s2 t = s3).
    { erewrite solo_step; [reflexivity|eauto|]. reflexivity. }
    assert (N3 : nth_error (ths s3) t = Some (goto th (Unlock true))) by (simpl; eapply nth_upd_same; eauto).
    exists 4%nat. simpl repeat. cbn [RequestModel.run fold_left].
    change (RequestModel.step react rid rmsg) with step. rewrite E1, E2, E3.
    erewrite solo_step; [|exact N3|reflexivity]. simpl. spl. exists []. simpl. auto.
  - set (s1 := mkSys (log (sh s) (EvNotify b (rcode (sh s)))) (upd (ths s) t (goto th (React b [])))).
    assert (E1 : step s t = s1).
    { erewrite solo_step; [reflexivity|eauto|]. unfold RequestModel.tstep. rewrite PC, CH. simpl.
      rewrite HR by (simpl; auto). reflexivity. }
    set (s2 := mkSys (sh s1) (upd (ths s1) t (goto th (CheckSt b)))).
    assert (N1 : nth_error (ths s1) t = Some (goto th (React b []))) by (simpl; eapply nth_upd_same; eauto).
    assert (E2 : step s1 t = s2).
    { erewrite solo_step; [reflexivity|eauto|]. reflexivity. }
    assert (N2 : nth_error (ths s2) t = Some (goto th (CheckSt b))) by (simpl; eapply nth_upd_same; eauto).
    set (s3 := mkSys (sh s1) (upd (ths s2) t (goto th (Unchain b)))).
    assert (E3 : step s2 t = s3).
    { erewrite solo_step; [reflexivity|eauto|]. unfold RequestModel.tstep. simpl. rewrite ST. reflexivity. }
    assert (N3 : nth_error (ths s3) t = Some (goto th (Unchain b))) by (simpl; eapply nth_upd_same; eauto).
    set (s4 := mkSys (log (set_ch (sh s1) l) (EvUnchained b)) (upd (ths s3) t (goto th Walk))).
    assert (E4 : step s3 t = s4).
    { erewrite solo_step; [reflexivity|eauto|]. unfold RequestModel.tstep. simpl. rewrite CH. reflexivity. }
    assert (N4 : nth_error (ths s4) t = Some (goto th Walk)) by (simpl; eapply nth_upd_same; eauto).
    destruct (IH s4 t _ N4 eq_refl) as (n & H); auto.
    { intros; apply HR; simpl; auto. }
    exists (4 + n)%nat. simpl repeat. unfold RequestModel.run in *. cbn [fold_left]. cbv zeta in *.
    rewrite E1, E2, E3, E4. destruct H as (H1 & H2 & H3 & y & H4 & H5 & H6). spl.
    exists (y ++ [EvUnchained b; EvNotify b (rcode (sh s))]). simpl in *. rewrite H4. spl.
    + rewrite <- app_assoc. reflexivity.
    + assert (forall a c, notified (a ++ c) = notified a ++ notified c) as NA.
      { induction a as [|e a IHa]; intros c; simpl; auto. destruct e; simpl; rewrite ?IHa; auto. }
      rewrite NA, rev_app_distr, H5. reflexivity.
    + rewrite count_app, H6. reflexivity.
Qed.

Lemma solo_fail s t th c rest : nth_error (ths s) t = Some th -> tpc th = Idle -> prog th = ORespondFail c :: rest ->
  lk (sh s) = None -> st012 (sh s) -> (forall b x, In b (ch (sh s)) -> react b x = []) ->
  exists n, let s' := run s (repeat t n) in
    st (sh s') = 8 /\ lk (sh s') = None /\
    exists y, tr (sh s') = EvDelivered rid rmsg c None :: y ++ tr (sh s) /\
              rev (notified y) = ch (sh s) /\ count is_delivered y = 0%nat.
Proof.
  intros N PC PR K ST HR.
  set (th1 := goto (mkTh Idle rest (dn th) (ORespondFail c)) (LockF c)).
  set (s1 := mkSys (sh s) (upd (ths s) t th1)).
  assert (E1 : step s t = s1).
  { erewrite solo_step; [reflexivity|eauto|]. unfold RequestModel.tstep. rewrite PC, PR. reflexivity. }
  assert (N1 : nth_error (ths s1) t = Some th1) by (simpl; eapply nth_upd_same; eauto).
  set (s2 := mkSys (set_lk (sh s) (Some t)) (upd (ths s1) t (goto th1 (CheckF c)))).
  assert (E2 : step s1 t = s2).
  { erewrite solo_step; [reflexivity|eauto|]. unfold RequestModel.tstep, acquire. simpl. rewrite K. reflexivity. }
  assert (N2 : nth_error (ths s2) t = Some (goto th1 (CheckF c))) by (simpl; eapply nth_upd_same; eauto).
  set (s3 := mkSys (sh s2) (upd (ths s2) t (goto th1 (Prep c None)))).
  assert (E3 : step s2 t = s3).
  { erewrite solo_step; [reflexivity|eauto|]. unfold RequestModel.tstep. simpl.
    destruct ST as [X|[X|X]]; rewrite X; reflexivity. }
  assert (N3 : nth_error (ths s3) t = Some (goto th1 (Prep c None))) by (simpl; eapply nth_upd_same; eauto).
  set (s4 := mkSys (mkSh (st (sh s)) (Some t) (ch (sh s)) c None (tr (sh s))) (upd (ths s3) t (goto th1 StorePrepared))).
  assert (E4 : step s3 t = s4).
  { erewrite solo_step; [reflexivity|eauto|]. reflexivity. }
  assert (N4 : nth_error (ths s4) t = Some (goto th1 StorePrepared)) by (simpl; eapply nth_upd_same; eauto).
  set (s5 := mkSys (log (set_st (sh s4) RsPrepared) EvPrepared) (upd (ths s4) t (goto th1 Walk))).
  assert (E5 : step s4 t = s5).
  { erewrite solo_step; [reflexivity|eauto|]. reflexivity. }
  assert (N5 : nth_error (ths s5) t = Some (goto th1 Walk)) by (simpl; eapply nth_upd_same; eauto).
  destruct (solo_walk (ch (sh s)) s5 t _ N5 eq_refl) as (n & H); auto.
  exists (5 + n)%nat. simpl repeat. unfold RequestModel.run in *. cbn [fold_left]. cbv zeta in *.
  rewrite E1, E2, E3, E4, E5. destruct H as (H1 & H2 & H3 & y & H4 & H5 & H6).
  spl.
  exists (y ++ [EvPrepared]). simpl in *. rewrite H4. spl.
  + rewrite <- app_assoc. reflexivity.
  + assert (forall a c, notified (a ++ c) = notified a ++ notified c) as NA.
    { induction a as [|e a IHa]; intros c0; simpl; auto. destruct e; simpl; rewrite ?IHa; auto. }
    rewrite NA, app_nil_r. auto.
  + rewrite count_app, H6. reflexivity.
Qed.
End More.
