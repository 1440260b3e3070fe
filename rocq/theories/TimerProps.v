(** Theorems about timers: C35-C38. *)
From Coq Require Import ZArith List Bool Arith Lia Permutation.
Import ListNotations.
From Verif Require Import TimerModel TimerSpec TimerProofs TimerInv.
Open Scope Z_scope.

(** *** runs *)
Lemma hrun_app h a b h' tr : hrun h (a ++ b) = Some (h', tr) <->
  exists h1 t1 t2, hrun h a = Some (h1, t1) /\ hrun h1 b = Some (h', t2) /\ tr = t1 ++ t2.
Proof.
  revert h tr. induction a as [|o a IH]; intros h tr; cbn [hrun app].
  - split.
    + intros E. exists h, [], tr. auto.
    + intros (h1 & t1 & t2 & E & F & ->). injection E as <- <-. exact F.
  - destruct (hstep h o) as [[h0 e]|].
    + split.
      * destruct (hrun h0 (a ++ b)) as [[h2 l]|] eqn:Q; [|discriminate]. intros [= <- <-].
        apply IH in Q. destruct Q as (h1 & t1 & t2 & E & F & ->). rewrite E. exists h1, (e :: t1), t2. auto.
      * intros (h1 & t1 & t2 & E & F & ->). destruct (hrun h0 a) as [[h2 l]|] eqn:Q; [|discriminate]. injection E as <- <-.
        assert (G : hrun h0 (a ++ b) = Some (h', l ++ t2)) by (apply IH; exists h2, l, t2; auto).
        rewrite G. reflexivity.
    + split; [discriminate|]. intros (? & ? & ? & E & _). discriminate.
Qed.
Lemma hrun_len h a h' tr : hrun h a = Some (h', tr) -> length tr = length a.
Proof.
  revert h tr. induction a as [|o a IH]; intros h tr; cbn [hrun]; [intros [= <- <-]; reflexivity|].
  destruct (hstep h o) as [[h0 e]|]; [|discriminate]. destruct (hrun h0 a) as [[h2 l]|] eqn:Q; [|discriminate].
  intros [= <- <-]. simpl. f_equal. eauto.
Qed.
(** the state before and after any event of a run *)
Lemma hrun_split ops h tr pre ev post : hrun hinit ops = Some (h, tr) -> tr = pre ++ ev :: post ->
  exists ops1 o ops2 h1 h2, ops = ops1 ++ o :: ops2 /\ hrun hinit ops1 = Some (h1, pre) /\
    hstep h1 o = Some (h2, ev) /\ hrun h2 ops2 = Some (h, post).
Proof.
  intros E ->. pose proof (hrun_len _ _ _ _ E) as L.
  rewrite <- (firstn_skipn (length pre) ops) in E. apply hrun_app in E. destruct E as (h1 & t1 & t2 & E1 & E2 & Q).
  pose proof (hrun_len _ _ _ _ E1) as L1. rewrite app_length in L. cbn [length] in L.
  rewrite firstn_length, Nat.min_l in L1 by lia.
  assert (Q' : t1 = pre /\ t2 = ev :: post).
  { clear - Q L1. revert pre Q L1. induction t1 as [|a t1 IH]; intros [|b pre] Q L1; try discriminate L1.
    - simpl in Q. auto.
    - simpl in Q. injection Q as -> Q. destruct (IH pre Q) as [-> ->]; [simpl in L1; lia|]. auto. }
  destruct Q' as [-> ->].
  destruct (skipn (length pre) ops) as [|o ops2] eqn:S; [discriminate E2|]. cbn [hrun] in E2.
  destruct (hstep h1 o) as [[h2 e]|] eqn:St; [|discriminate]. destruct (hrun h2 ops2) as [[h3 l]|] eqn:R; [|discriminate].
  injection E2 as <- <- <-. exists (firstn (length pre) ops), o, ops2, h1, h2.
  split; [|auto]. rewrite <- S. symmetry. apply firstn_skipn.
Qed.

Lemma hrun_inv ops : forall h T fl, Inv h T fl -> exists h' T' fl' tr, hrun h ops = Some (h', tr) /\ Inv h' T' fl'.
Proof.
  induction ops as [|o ops IH]; intros h T fl I; cbn [hrun].
  - exists h, T, fl, []. auto.
  - destruct (hstep_ok h T fl o I) as (h1 & T1 & fl1 & ev & E & I1 & _). rewrite E.
    destruct (IH _ _ _ I1) as (h2 & T2 & fl2 & tr & E2 & I2). rewrite E2. exists h2, T2, fl2, (ev :: tr). auto.
Qed.
Lemma hrun_inv0 ops h tr : hrun hinit ops = Some (h, tr) -> exists T fl, Inv h T fl.
Proof.
  intros E. destruct (hrun_inv ops _ _ _ inv_init) as (h' & T & fl & tr' & E' & I). rewrite E in E'.
  injection E' as <- <-. eauto.
Qed.

(** *** C38 *)
Lemma in_use_iff h T fl i : Inv h T fl -> (in_use h i <-> In i (oidx T)).
Proof.
  intros I. unfold in_use. split.
  - intros [B N]. pose proof (inv_in' _ _ _ _ I B) as J. apply in_app_or in J. destruct J as [J|J]; auto.
    exfalso. apply N. apply (inv_none _ _ _ I); auto.
  - intros J. split; [eapply inv_in; [exact I|apply in_or_app; auto]|].
    unfold oidx in J. apply in_map_iff in J. destruct J as ([[j x] e] & Q & J). unfold eidx in Q; simpl in Q. subst j.
    destruct T as [t|]; [|destruct J]. destruct (inv_top _ _ _ I) as (_ & R & _).
    destruct (rep_cell _ _ _ _ _ R J) as [X _]. congruence.
Qed.
Lemma reps_nth c i k l n : reps c i k l -> (n < length l)%nat -> exists t, nth_error l n = Some t /\
  nth n (map root l) 0%nat = root t /\ iup (c (root t)) = i /\ iupi (c (root t)) = k + Z.of_nat n /\ rep c t.
Proof.
  revert k n. induction l as [|t l IH]; intros k n R L; [simpl in L; lia|]. cbn [reps] in R. destruct R as (A & B & C & D).
  destruct n as [|n].
  - exists t. simpl. rewrite Z.add_0_r. auto.
  - cbn [length] in L. destruct (IH (k + 1) n D) as (u & U1 & U2 & U3 & U4 & U5); [lia|]. exists u. cbn [nth_error map nth].
    split; auto. split; auto. split; auto. split; auto. rewrite U4. lia.
Qed.
Lemma rep_links c t : rep c t -> ord t -> forall i, In i (idx t) ->
  (idl (c i) <= 4)%nat /\
  (forall k, (k < idl (c i))%nat -> let j := nth k (idn (c i)) 0%nat in
     In j (idx t) /\ iup (c j) = i /\ iupi (c j) = Z.of_nat k /\ ie (c i) <= ie (c j)) /\
  (i <> root t -> In (iup (c i)) (idx t) /\ 0 <= iupi (c i) < Z.of_nat (idl (c (iup (c i)))) /\
     nth (Z.to_nat (iupi (c i))) (idn (c (iup (c i)))) 0%nat = i).
Proof.
  induction t as [r x e cs IH] using tree_ind'. intros R O i J.
  pose proof (proj1 (rep_eq _ _ _ _ _) R) as (A1 & A2 & A3 & A4 & A5 & A6).
  pose proof (proj1 (ord_eq _ _ _ _) O) as Oc. rewrite Forall_forall in Oc, IH.
  rewrite idx_node in *. destruct J as [<-|J].
  - split; [lia|]. split.
    + intros k K. cbv zeta. rewrite A4, pad_nth. rewrite A3 in K.
      destruct (reps_nth _ _ _ _ _ A6 K) as (t & T1 & T2 & T3 & T4 & T5). rewrite T2, T3, T4.
      assert (It : In t cs) by (eapply nth_error_In; eauto).
      split; [right; eapply in_idxs; eauto using root_in|]. split; auto. split; [lia|].
      rewrite (rep_key _ _ T5). destruct (Oc t It). lia.
    + intros N. cbn [root] in N. congruence.
  - unfold idxs in J. apply in_map_iff in J. destruct J as (a & Q & J). apply in_flat_map in J.
    destruct J as (t & It & Ja). assert (Jt : In i (idx t)) by (rewrite <- Q; apply in_map; auto).
    destruct (reps_in _ _ _ _ _ A6 It) as [Rt Ut]. destruct (Oc t It) as [Kt Ot].
    destruct (IH t It Rt Ot i Jt) as (B1 & B2 & B3). split; auto. split.
    + intros k K. cbv zeta. destruct (B2 k K) as (C1 & C2 & C3 & C4). split; auto. right. eapply in_idxs; eauto.
    + intros N. cbn [root] in N. destruct (Nat.eq_dec i (root t)) as [->|Ni].
      * rewrite Ut. split; [left; auto|].
        apply In_nth_error in It. destruct It as (n & It).
        assert (Ln : (n < length cs)%nat) by (apply nth_error_Some; congruence).
        destruct (reps_nth _ _ _ _ _ A6 Ln) as (t' & T1 & T2 & T3 & T4 & T5).
        rewrite It in T1. injection T1 as <-. rewrite T4, A3. split; [lia|].
        rewrite A4, pad_nth. replace (Z.to_nat (0 + Z.of_nat n)) with n by lia. auto.
      * destruct (B3 Ni) as (D1 & D2 & D3). split; auto. right. eapply in_idxs; eauto.
Qed.

Lemma inv_links h T fl : Inv h T fl -> links_ok h.
Proof.
  intros I. pose proof (fun i => in_use_iff h T fl i I) as U. pose proof (live_perm h T fl I) as LP.
  assert (LE : top h = 0%nat <-> live_cells h = []).
  { pose proof (inv_top _ _ _ I) as IT. destruct T as [t|].
    - destruct IT as (Tp & _ & _). assert (0 < root t < hlen h)%nat by (eapply inv_in; [exact I|apply in_or_app; left; apply root_in]).
      split; [intros; lia|]. intros E. rewrite E in LP. apply Permutation_nil in LP. destruct t; discriminate LP.
    - split; auto. intros _. simpl in LP. apply Permutation_sym in LP. apply Permutation_nil in LP. auto. }
  destruct T as [t|].
  - destruct (inv_top _ _ _ I) as (Tp & R & O). pose proof (rep_links _ _ R O) as RL.
    split; [|split; [|split; [|split; [exact LE|]]]].
    + intros i k J Hk. cbv zeta. apply U in J. destruct (proj1 (proj2 (RL i J)) k Hk) as (C1 & C2 & C3 & C4).
      split; [apply U; exact C1|auto].
    + intros j J Hj. cbv zeta. apply U in J. rewrite Tp in Hj. destruct (proj2 (proj2 (RL j J)) Hj) as (C1 & C2 & C3).
      split; [apply U; exact C1|auto].
    + intros i J. apply U in J. apply (RL i J).
    + intros _. rewrite Tp. apply (U (root t)). apply root_in.
  - pose proof (inv_top _ _ _ I) as Tp. simpl in Tp.
    assert (F : forall i, in_use h i -> False) by (intros i J; apply U in J; destruct J).
    split; [intros i k J; exfalso; eauto|]. split; [intros j J; exfalso; eauto|]. split; [intros i J; exfalso; eauto|].
    split; auto. intros; congruence.
Qed.

(** Every history of arming, stopping and expiring - disciplined or not - runs to its end without an
    out-of-range index, a nil dereference or exhausted recursion, and leaves consistent links. *)
Theorem C38_timer_heap_never_corrupts : forall ops,
  exists h tr, hrun hinit ops = Some (h, tr) /\ length tr = length ops /\ links_ok h.
Proof.
  intros ops. destruct (hrun_inv ops _ _ _ inv_init) as (h & T & fl & tr & E & I).
  exists h, tr. split; auto. split; [eapply hrun_len; eauto|eapply inv_links; eauto].
Qed.

(** Every operation changes the multiset of entries held by exactly the entry it is about: push writes
    over no other entry, remove takes out one. *)
Theorem C38_only_freed_cells_reused : forall ops h tr o h' ev, hrun hinit ops = Some (h, tr) -> hstep h o = Some (h', ev) ->
  match ev with
  | Armed x e => Permutation (live_cells h') ((x, e) :: live_cells h)
  | Stopped x => live_cells h' = live_cells h \/ exists e, Permutation (live_cells h) ((x, e) :: live_cells h')
  | Fired x e _ => Permutation (live_cells h) ((x, e) :: live_cells h')
  | Asleep _ => live_cells h' = live_cells h
  end.
Proof.
  intros ops h tr o h' ev E S. destruct (hrun_inv0 _ _ _ E) as (T & fl & I).
  destruct (hstep_ok h T fl o I) as (h1 & T1 & fl1 & ev1 & S1 & I1 & Q). rewrite S in S1. injection S1 as <- <-.
  pose proof (live_perm _ _ _ I) as L. pose proof (live_perm _ _ _ I1) as L1.
  set (g := fun a : ent => (snd (fst a), snd a)) in *.
  assert (Rm : forall i x e, Permutation (oents T) ((i, x, e) :: oents T1) -> Permutation (live_cells h) ((x, e) :: live_cells h')).
  { intros i x e P. eapply perm_trans; [exact L|]. apply (Permutation_map g) in P. eapply perm_trans; [exact P|].
    simpl. apply perm_skip. apply Permutation_sym; auto. }
  destruct o as [x e|x|now].
  - destruct Q as (i & -> & P & _). eapply perm_trans; [exact L1|]. apply (Permutation_map g) in P.
    eapply perm_trans; [exact P|]. simpl. apply perm_skip. apply Permutation_sym; auto.
  - destruct Q as (-> & Q). cbn [hstep] in S. destruct (Nat.eqb (ti h x) 0).
    + injection S as <-. auto.
    + right. destruct Q as (e & P & _). exists e. eapply Rm; eauto.
  - destruct Q as [(i & x & e & -> & _ & P & _)|(-> & _ & -> & _)]; eauto.
Qed.

(** *** C35 *)
(** The entry taken by the loop is overdue and there is none with an earlier deadline. *)
Theorem C35_deadline_order_never_early : forall ops h tr pre x e now post,
  hrun hinit ops = Some (h, tr) -> tr = pre ++ Fired x e now :: post ->
  exists ops1 h1, hrun hinit ops1 = Some (h1, pre) /\
    e < now /\ In (x, e) (live_cells h1) /\ forall y f, In (y, f) (live_cells h1) -> e <= f.
Proof.
  intros ops h tr pre x e now post E Q. destruct (hrun_split _ _ _ _ _ _ E Q) as (ops1 & o & ops2 & h1 & h2 & _ & E1 & S & _).
  exists ops1, h1. split; auto. destruct (hrun_inv0 _ _ _ E1) as (T & fl & I).
  destruct (hstep_ok h1 T fl o I) as (h3 & T3 & fl3 & ev3 & S3 & I3 & C). rewrite S in S3. injection S3 as <- <-.
  destruct o as [y f|y|n].
  - destruct C as (i & C & _). discriminate.
  - destruct C as (C & _). discriminate.
  - destruct C as [(i & y & f & C & L & P & _ & M)|(C & _)]; [|discriminate]. injection C as -> -> ->.
    split; auto. split.
    + apply (live_iff _ _ _ _ _ I). exists i. eapply Permutation_in; [apply Permutation_sym; exact P|left; auto].
    + intros y' f' J. apply (live_iff _ _ _ _ _ I) in J. destruct J as (j & J). apply (M _ J).
Qed.

(** *** disciplined histories *)
Definition K (h : heap) (T : option tree) (tr : list tev) : Prop :=
  (forall i x e, In (i, x, e) (oents T) -> ti h x = i /\ armed tr x = Some e) /\
  (forall x e, armed tr x = Some e -> In (ti h x, x, e) (oents T)).
Lemma armed_snoc tr ev x : armed (tr ++ [ev]) x = upd_armed x (armed tr x) ev.
Proof. unfold armed. rewrite fold_left_app. reflexivity. Qed.
Lemma disciplined_prefix a b : disciplined (a ++ b) -> disciplined a.
Proof. intros D pre x e post ->. apply (D pre x e (post ++ b)). rewrite <- app_assoc. reflexivity. Qed.

Lemma nodup_entry T i x e y f : NoDup (oidx T) -> In (i, x, e) (oents T) -> In (i, y, f) (oents T) -> x = y /\ e = f.
Proof.
  unfold oidx. generalize (oents T). intros l. induction l as [|a l IH]; intros N A B; [destruct A|].
  simpl in N. apply NoDup_cons_iff in N. destruct N as [N1 N2].
  destruct A as [->|A]; destruct B as [B|B].
  - injection B. auto.
  - exfalso. apply N1. apply (in_map eidx) in B. exact B.
  - subst a. exfalso. apply N1. apply (in_map eidx) in A. exact A.
  - auto.
Qed.

Lemma K_step h T fl tr o h' ev : Inv h T fl -> K h T tr -> hstep h o = Some (h', ev) ->
  (forall x e, ev = Armed x e -> armed tr x = None) -> exists T' fl', Inv h' T' fl' /\ K h' T' (tr ++ [ev]).
Proof.
  intros I [K1 K2] S D. destruct (hstep_ok h T fl o I) as (h1 & T1 & fl1 & ev1 & S1 & I1 & C). rewrite S in S1. injection S1 as <- <-.
  exists T1, fl1. split; auto. unfold K. setoid_rewrite armed_snoc.
  assert (ND : NoDup (oidx T)) by (eapply NoDup_app_l; eapply inv_nodup; eauto).
  assert (Rm : forall i x e, Permutation (oents T) ((i, x, e) :: oents T1) -> ti h' = fupd (ti h) x 0%nat ->
     (forall j y f, In (j, y, f) (oents T1) -> ti h' y = j /\ (if Nat.eqb x y then None else armed tr y) = Some f) /\
     (forall y f, (if Nat.eqb x y then None else armed tr y) = Some f -> In (ti h' y, y, f) (oents T1))).
  { intros i x e P Ti.
    assert (Ix : In (i, x, e) (oents T)) by (eapply Permutation_in; [apply Permutation_sym; exact P|left; auto]).
    assert (ND1 : ~ In i (oidx T1)).
    { apply (Permutation_map eidx) in P. assert (N : NoDup (i :: oidx T1)) by (eapply Permutation_NoDup; [exact P|auto]).
      apply NoDup_cons_iff in N. tauto. }
    split.
    - intros j y f J. assert (J' : In (j, y, f) (oents T)) by (eapply Permutation_in; [apply Permutation_sym; exact P|right; auto]).
      destruct (K1 _ _ _ J') as [Q1 Q2]. destruct (Nat.eqb_spec x y) as [<-|Ny].
      + exfalso. destruct (K1 _ _ _ Ix) as [Q3 _]. apply ND1. apply (in_map eidx) in J. replace i with j by congruence. exact J.
      + split; auto. rewrite Ti, fupd_ne by auto. auto.
    - intros y f. destruct (Nat.eqb_spec x y) as [<-|Ny]; [discriminate|]. intros A. apply K2 in A.
      rewrite Ti, fupd_ne by auto. eapply Permutation_in in A; [|exact P]. destruct A as [A|A]; auto. congruence. }
  destruct o as [x e|x|now].
  - destruct C as (i & -> & P & Ti & Ni). specialize (D x e eq_refl). cbn [upd_armed].
    split.
    + intros j y f J. eapply Permutation_in in J; [|exact P]. destruct J as [J|J].
      * injection J as <- <- <-. rewrite Ti, fupd_eq, Nat.eqb_refl. auto.
      * destruct (K1 _ _ _ J) as [Q1 Q2]. destruct (Nat.eqb_spec x y) as [<-|Ny]; [congruence|].
        rewrite Ti, fupd_ne by auto. auto.
    + intros y f. destruct (Nat.eqb_spec x y) as [<-|Ny].
      * intros [= <-]. rewrite Ti, fupd_eq. eapply Permutation_in; [apply Permutation_sym; exact P|left; auto].
      * intros A. apply K2 in A. rewrite Ti, fupd_ne by auto. eapply Permutation_in; [apply Permutation_sym; exact P|right; auto].
  - destruct C as (-> & C). cbn [upd_armed]. destruct (Nat.eqb_spec (ti h x) 0) as [Z|Z].
    + destruct C as [-> Ti]. 
      assert (Ax : armed tr x = None).
      { destruct (armed tr x) as [f|] eqn:A; auto. apply K2 in A. rewrite Z in A. exfalso.
        assert (B : In 0%nat (oidx T)) by (apply (in_map eidx) in A; exact A).
        assert (0 < 0 < hlen h)%nat by (eapply inv_in; [exact I|apply in_or_app; left; exact B]). lia. }
      split.
      * intros j y f J. destruct (K1 _ _ _ J) as [Q1 Q2]. rewrite Ti. split; auto.
        destruct (Nat.eqb_spec x y) as [<-|]; auto. congruence.
      * intros y f. destruct (Nat.eqb_spec x y) as [<-|]; [discriminate|]. intros A. rewrite Ti. auto.
    + destruct C as (e & P & Ti). apply (Rm _ _ _ P Ti).
  - destruct C as [(i & x & e & -> & _ & P & Ti & _)|(-> & -> & -> & _)].
    + cbn [upd_armed]. apply (Rm _ _ _ P Ti).
    + cbn [upd_armed]. split; auto.
Qed.

Lemma K_run ops : forall h tr, hrun hinit ops = Some (h, tr) -> disciplined tr -> exists T fl, Inv h T fl /\ K h T tr.
Proof.
  induction ops as [|o ops IH] using rev_ind; intros h tr E D.
  - injection E as <- <-. exists None, []. split; [apply inv_init|]. split; [intros ? ? ? []|discriminate].
  - apply hrun_app in E. destruct E as (h1 & t1 & t2 & E1 & E2 & ->). cbn [hrun] in E2.
    destruct (hstep h1 o) as [[h2 ev]|] eqn:S; [|discriminate]. injection E2 as <- <-.
    destruct (IH h1 t1 E1) as (T & fl & I & KK); [eapply disciplined_prefix; eauto|].
    eapply K_step; eauto. intros x e ->. apply (D t1 x e []). reflexivity.
Qed.

(** *** C36 *)
(** A timer only fires while it is armed, with the deadline it was armed with; so it never fires after
    Stop, and at most once per After. *)
Theorem C36_only_armed_timers_fire : forall ops h tr pre x e now post,
  hrun hinit ops = Some (h, tr) -> tr = pre ++ Fired x e now :: post -> disciplined pre -> armed pre x = Some e.
Proof.
  intros ops h tr pre x e now post E Q D. destruct (hrun_split _ _ _ _ _ _ E Q) as (ops1 & o & ops2 & h1 & h2 & _ & E1 & S & _).
  destruct (K_run _ _ _ E1 D) as (T & fl & I & K1 & K2).
  destruct (hstep_ok h1 T fl o I) as (h3 & T3 & fl3 & ev3 & S3 & I3 & C). rewrite S in S3. injection S3 as <- <-.
  destruct o as [y f|y|n].
  - destruct C as (i & C & _). discriminate.
  - destruct C as (C & _). discriminate.
  - destruct C as [(i & y & f & C & L & P & _ & M)|(C & _)]; [|discriminate]. injection C as -> -> ->.
    apply (K1 i). eapply Permutation_in; [apply Permutation_sym; exact P|left; auto].
Qed.

Lemma armed_app a b x : armed (a ++ b) x = fold_left (upd_armed x) b (armed a x).
Proof. unfold armed. apply fold_left_app. Qed.
Lemma fold_armed b x : forall st e, fold_left (upd_armed x) b st = Some e -> st <> None \/ exists f, In (Armed x f) b.
Proof.
  induction b as [|ev b IH]; intros st e; simpl.
  - intros ->. left. congruence.
  - intros E. apply IH in E. destruct E as [E|(f & E)]; [|right; exists f; auto].
    destruct ev as [y f|y|y f n|n]; simpl in E; auto.
    + destruct (Nat.eqb_spec y x) as [->|]; auto. right. exists f. auto.
    + destruct (Nat.eqb_spec y x); auto.
    + destruct (Nat.eqb_spec y x); auto.
Qed.

Theorem C36_stopped_timer_never_fires : forall ops h tr a x b e now c,
  hrun hinit ops = Some (h, tr) -> disciplined tr -> tr = a ++ Stopped x :: b ++ Fired x e now :: c ->
  exists f, In (Armed x f) b.
Proof.
  intros ops h tr a x b e now c E D ->.
  assert (Q : a ++ Stopped x :: b ++ Fired x e now :: c = (a ++ Stopped x :: b) ++ Fired x e now :: c) by (rewrite <- app_assoc; reflexivity).
  pose proof (C36_only_armed_timers_fire _ _ _ _ _ _ _ _ E Q) as A.
  assert (A' : armed (a ++ Stopped x :: b) x = Some e).
  { apply A. apply (disciplined_prefix _ (Fired x e now :: c)). rewrite <- Q. exact D. }
  change (Stopped x :: b) with ([Stopped x] ++ b) in A'. rewrite app_assoc, armed_app, armed_snoc in A'.
  cbn [upd_armed] in A'. rewrite Nat.eqb_refl in A'. apply fold_armed in A'. destruct A' as [A'|A']; auto. congruence.
Qed.
Theorem C36_fires_once_per_After : forall ops h tr a x e1 n1 b e2 n2 c,
  hrun hinit ops = Some (h, tr) -> disciplined tr -> tr = a ++ Fired x e1 n1 :: b ++ Fired x e2 n2 :: c ->
  exists f, In (Armed x f) b.
Proof.
  intros ops h tr a x e1 n1 b e2 n2 c E D ->.
  assert (Q : a ++ Fired x e1 n1 :: b ++ Fired x e2 n2 :: c = (a ++ Fired x e1 n1 :: b) ++ Fired x e2 n2 :: c) by (rewrite <- app_assoc; reflexivity).
  pose proof (C36_only_armed_timers_fire _ _ _ _ _ _ _ _ E Q) as A.
  assert (A' : armed (a ++ Fired x e1 n1 :: b) x = Some e2).
  { apply A. apply (disciplined_prefix _ (Fired x e2 n2 :: c)). rewrite <- Q. exact D. }
  change (Fired x e1 n1 :: b) with ([Fired x e1 n1] ++ b) in A'. rewrite app_assoc, armed_app, armed_snoc in A'.
  cbn [upd_armed] in A'. rewrite Nat.eqb_refl in A'. apply fold_armed in A'. destruct A' as [A'|A']; auto. congruence.
Qed.

(** Without the discipline: every After still leads to at most one expiry. *)
Definition is_armed (x : nat) (e : Z) (ev : tev) : bool :=
  match ev with Armed y f => Nat.eqb y x && (f =? e) | _ => false end.
Definition is_fired (x : nat) (e : Z) (ev : tev) : bool :=
  match ev with Fired y f _ => Nat.eqb y x && (f =? e) | _ => false end.
Definition is_ent (x : nat) (e : Z) (a : nat * Z) : bool := Nat.eqb (fst a) x && (snd a =? e).
Definition count {A} (p : A -> bool) (l : list A) : nat := length (filter p l).
Lemma count_perm {A} (p : A -> bool) l m : Permutation l m -> count p l = count p m.
Proof.
  unfold count. induction 1; simpl; auto.
  - destruct (p x); simpl; auto. - destruct (p x), (p y); simpl; auto. - congruence.
Qed.
Lemma count_app {A} (p : A -> bool) l m : count p (l ++ m) = (count p l + count p m)%nat.
Proof. unfold count. rewrite filter_app, app_length. reflexivity. Qed.
Lemma count_cons {A} (p : A -> bool) a l : count p (a :: l) = ((if p a then 1 else 0) + count p l)%nat.
Proof. unfold count. simpl. destruct (p a); reflexivity. Qed.
Lemma count_nil {A} (p : A -> bool) : count p [] = 0%nat.
Proof. reflexivity. Qed.
Theorem C36_at_most_one_expiry_per_After : forall ops h tr x e,
  hrun hinit ops = Some (h, tr) -> (count (is_fired x e) tr <= count (is_armed x e) tr)%nat.
Proof.
  intros ops h tr x e E.
  assert (G : (count (is_fired x e) tr + count (is_ent x e) (live_cells h) <= count (is_armed x e) tr)%nat).
  { revert h tr E. induction ops as [|o ops IH] using rev_ind; intros h tr E.
    - injection E as <- <-. vm_compute. lia.
    - apply hrun_app in E. destruct E as (h1 & t1 & t2 & E1 & E2 & ->). cbn [hrun] in E2.
      destruct (hstep h1 o) as [[h2 ev]|] eqn:S; [|discriminate]. injection E2 as <- <-.
      specialize (IH _ _ E1). rewrite !count_app.
      pose proof (C38_only_freed_cells_reused _ _ _ _ _ _ E1 S) as C.
      destruct ev as [y f|y|y f n|n].
      + apply (count_perm (is_ent x e)) in C. rewrite C, !count_cons, !count_nil. cbn [is_fired is_armed]. change (is_ent x e (y, f)) with (Nat.eqb y x && (f =? e)).
        destruct (Nat.eqb y x && (f =? e)); lia.
      + rewrite !count_cons, !count_nil. cbn [is_fired is_armed]. destruct C as [C|(f & C)].
        * rewrite C. lia.
        * apply (count_perm (is_ent x e)) in C. rewrite count_cons in C. lia.
      + apply (count_perm (is_ent x e)) in C. rewrite count_cons in C. rewrite !count_cons, !count_nil. cbn [is_fired is_armed].
        change (is_ent x e (y, f)) with (Nat.eqb y x && (f =? e)) in C. destruct (Nat.eqb y x && (f =? e)); lia.
      + rewrite C, !count_cons, !count_nil. cbn [is_fired is_armed]. lia. }
  lia.
Qed.

(** The discipline is needed for Stop: a timer armed twice keeps its first entry after Stop. *)
Example C36_stop_misses_a_doubly_armed_timer :
  option_map snd (hrun hinit [Arm 1 10; Arm 1 20; Stop 1; Pop 50]) = Some [Armed 1 10; Armed 1 20; Stopped 1; Fired 1 10 50].
Proof. reflexivity. Qed.

(** *** C37 *)
(** The entries held are exactly the armed timers, one each. *)
Theorem C37_live_entries_are_the_armed_timers : forall ops h tr, hrun hinit ops = Some (h, tr) -> disciplined tr ->
  (forall x e, In (x, e) (live_cells h) <-> armed tr x = Some e) /\ NoDup (map fst (live_cells h)).
Proof.
  intros ops h tr E D. destruct (K_run _ _ _ E D) as (T & fl & I & K1 & K2). split.
  - intros x e. rewrite (live_iff _ _ _ _ _ I). split.
    + intros (i & J). apply (K1 _ _ _ J).
    + intros A. apply K2 in A. eauto.
  - pose proof (live_perm _ _ _ I) as P. apply (Permutation_map fst) in P.
    eapply Permutation_NoDup; [apply Permutation_sym; exact P|]. rewrite map_map. cbn [fst].
    assert (ND : NoDup (oidx T)) by (eapply NoDup_app_l; eapply inv_nodup; eauto).
    clear - ND K1. unfold oidx in ND. revert ND K1. generalize (oents T). intros l. induction l as [|[[i x] e] l IH]; simpl; intros ND K1; constructor.
    + intros J. apply in_map_iff in J. destruct J as ([[j y] f] & Q & J). cbn [fst snd] in Q. subst y.
      destruct (K1 i x e (or_introl eq_refl)) as [Q1 _]. destruct (K1 j x f (or_intror J)) as [Q2 _].
      apply NoDup_cons_iff in ND. destruct ND as [ND _]. apply ND. apply (in_map eidx) in J. replace (eidx (i, x, e)) with j; [exact J|].
      unfold eidx; simpl. congruence.
    + apply IH; [apply NoDup_cons_iff in ND; tauto|]. intros; apply K1; auto.
Qed.

(** When the loop goes to sleep no armed timer is overdue. *)
Theorem C37_nothing_overdue_when_asleep : forall ops h tr pre now post,
  hrun hinit ops = Some (h, tr) -> tr = pre ++ Asleep now :: post ->
  exists ops1 h1, hrun hinit ops1 = Some (h1, pre) /\ (forall y f, In (y, f) (live_cells h1) -> now <= f) /\
    (disciplined pre -> forall y f, armed pre y = Some f -> now <= f).
Proof.
  intros ops h tr pre now post E Q. destruct (hrun_split _ _ _ _ _ _ E Q) as (ops1 & o & ops2 & h1 & h2 & _ & E1 & S & _).
  exists ops1, h1. split; auto. destruct (hrun_inv0 _ _ _ E1) as (T & fl & I).
  destruct (hstep_ok h1 T fl o I) as (h3 & T3 & fl3 & ev3 & S3 & I3 & C). rewrite S in S3. injection S3 as <- <-.
  assert (G : forall y f, In (y, f) (live_cells h1) -> now <= f).
  { destruct o as [y f|y|n].
    - destruct C as (i & C & _). discriminate.
    - destruct C as (C & _). discriminate.
    - destruct C as [(i & y & f & C & _)|(C & _ & _ & M)]; [discriminate|]. injection C as ->.
      intros y f J. apply (live_iff _ _ _ _ _ I) in J. destruct J as (j & J). apply (M _ J). }
  split; auto. intros D y f A. apply (G y). apply (C37_live_entries_are_the_armed_timers _ _ _ E1 D). auto.
Qed.

(** The loop gets there: as many rounds as there are entries, plus one, always include one after
    which it sleeps; until then every round expires a timer. *)
Theorem C37_loop_drains : forall ops h tr now, hrun hinit ops = Some (h, tr) ->
  exists h' tr', hrun h (repeat (Pop now) (S (length (live_cells h)))) = Some (h', tr') /\ In (Asleep now) tr'.
Proof.
  intros ops h tr now E. destruct (hrun_inv0 _ _ _ E) as (T & fl & I). clear E.
  assert (L : length (live_cells h) = length (oents T)).
  { pose proof (Permutation_length (live_perm _ _ _ I)) as P. rewrite map_length in P. exact P. }
  rewrite L. clear L.
  assert (G : forall n h T fl, Inv h T fl -> (length (oents T) <= n)%nat ->
     exists h' tr', hrun h (repeat (Pop now) (S n)) = Some (h', tr') /\ In (Asleep now) tr').
  { clear. induction n as [|n IH]; intros h T fl I L.
    - destruct T as [t|]; [destruct t; simpl in L; lia|].
      cbn [repeat hrun hstep]. rewrite (inv_size _ _ _ I). simpl. exists h, [Asleep now]. simpl. auto.
    - change (repeat (Pop now) (S (S n))) with (Pop now :: repeat (Pop now) (S n)). cbn [hrun].
      destruct (hstep_ok h T fl (Pop now) I) as (h1 & T1 & fl1 & ev & St & I1 & C). rewrite St.
      destruct C as [(i & x & e & -> & _ & P & _)|(-> & -> & -> & _)].
      + destruct (IH h1 T1 fl1 I1) as (h' & tr' & E & J).
        { apply perm_len in P. simpl in P. lia. }
        rewrite E. exists h', (Fired x e now :: tr'). split; auto. right; auto.
      + destruct (hrun_inv (repeat (Pop now) (S n)) _ _ _ I) as (h' & T' & fl' & tr' & E & _). rewrite E.
        exists h', (Asleep now :: tr'). split; auto. left; auto. }
  eapply G; eauto.
Qed.

(** Witnesses: a disciplined history that grows the heap past several levels, with stops in the middle. *)
Definition ex_ops : list top_ :=
  [Arm 1 50; Arm 2 40; Arm 3 60; Arm 4 30; Arm 5 70; Arm 6 20; Arm 7 80; Arm 8 10; Arm 9 45; Arm 10 90;
   Stop 4; Stop 9; Pop 25; Pop 25; Pop 25; Arm 4 26; Pop 100; Stop 8; Arm 8 5; Pop 6; Pop 7].
Example C35_ex : option_map snd (hrun hinit ex_ops) =
  Some [Armed 1 50; Armed 2 40; Armed 3 60; Armed 4 30; Armed 5 70; Armed 6 20; Armed 7 80; Armed 8 10; Armed 9 45; Armed 10 90;
        Stopped 4; Stopped 9; Fired 8 10 25; Fired 6 20 25; Asleep 25; Armed 4 26; Fired 4 26 100; Stopped 8; Armed 8 5;
        Fired 8 5 6; Asleep 7].
Proof. vm_compute. reflexivity. Qed.
(** a decidable version of the discipline, to show that it is met *)
Fixpoint disciplinedb (pre tr : list tev) : bool :=
  match tr with
  | [] => true
  | ev :: tr => (match ev with Armed x _ => match armed pre x with None => true | Some _ => false end | _ => true end) && disciplinedb (pre ++ [ev]) tr
  end.
Lemma disciplinedb_ok tr : disciplinedb [] tr = true -> disciplined tr.
Proof.
  assert (G : forall tr pre0, disciplinedb pre0 tr = true -> forall pre x e post, tr = pre ++ Armed x e :: post -> armed (pre0 ++ pre) x = None).
  { clear tr. induction tr as [|ev tr IH]; intros pre0 D pre x e post Q; [destruct pre; discriminate|].
    cbn [disciplinedb] in D. apply andb_prop in D. destruct D as [D1 D2].
    destruct pre as [|ev' pre]; injection Q as -> Q.
    - rewrite app_nil_r. destruct (armed pre0 x); [discriminate|reflexivity].
    - change (ev' :: pre) with ([ev'] ++ pre). rewrite app_assoc. eapply IH; eauto. }
  intros D pre x e post Q. apply (G tr [] D pre x e post Q).
Qed.
Example C36_ex : exists h tr, hrun hinit ex_ops = Some (h, tr) /\ disciplined tr /\ In (Fired 8 5 6) tr /\ In (Asleep 7) tr.
Proof.
  assert (E : exists h, hrun hinit ex_ops = Some (h, [Armed 1 50; Armed 2 40; Armed 3 60; Armed 4 30; Armed 5 70; Armed 6 20; Armed 7 80; Armed 8 10; Armed 9 45; Armed 10 90;
        Stopped 4; Stopped 9; Fired 8 10 25; Fired 6 20 25; Asleep 25; Armed 4 26; Fired 4 26 100; Stopped 8; Armed 8 5;
        Fired 8 5 6; Asleep 7])).
  { pose proof C35_ex as E. destruct (hrun hinit ex_ops) as [[h tr]|]; [|discriminate E]. injection E as ->. eauto. }
  destruct E as (h & E). eexists h, _. split; [exact E|]. split; [apply disciplinedb_ok; vm_compute; reflexivity|]. simpl. auto 30.
Qed.

Print Assumptions C35_deadline_order_never_early.
Print Assumptions C36_only_armed_timers_fire.
Print Assumptions C36_stopped_timer_never_fires.
Print Assumptions C36_fires_once_per_After.
Print Assumptions C36_at_most_one_expiry_per_After.
Print Assumptions C37_live_entries_are_the_armed_timers.
Print Assumptions C37_nothing_overdue_when_asleep.
Print Assumptions C37_loop_drains.
Print Assumptions C38_timer_heap_never_corrupts.
Print Assumptions C38_only_freed_cells_reused.
