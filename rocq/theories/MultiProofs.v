(** Invariants of the MultiRequest machine. *)
From Coq Require Import List Bool Arith Lia Permutation.
Import ListNotations.
From Verif Require Import MultiModel MultiSpec.

(** * Sums over the requests *)
Fixpoint sumf (f : nat -> nat) (n : nat) : nat := match n with 0 => 0 | S n => f n + sumf f n end.
Lemma sumf_ext : forall f g n, (forall i, i < n -> f i = g i) -> sumf f n = sumf g n.
Proof. induction n; cbn; intros H; auto. rewrite IHn, H by (intros; auto). auto. Qed.
Lemma upd_same : forall A (f : nat -> A) k v, upd f k v k = v.
Proof. intros. unfold upd. rewrite Nat.eqb_refl. auto. Qed.
Lemma upd_other : forall A (f : nat -> A) k v i, i <> k -> upd f k v i = f i.
Proof. intros. unfold upd. destruct (Nat.eqb_spec i k); congruence. Qed.
Lemma sumf_upd : forall (g : dpc -> nat) d i v n, i < n ->
  sumf (fun j => g (upd d i v j)) n + g (d i) = sumf (fun j => g (d j)) n + g v.
Proof.
  induction n; intros H; [lia|]. cbn. destruct (Nat.eq_dec i n) as [E|E].
  - subst. rewrite upd_same. rewrite (sumf_ext _ (fun j => g (d j))); [lia|]. intros. rewrite upd_other by lia. auto.
  - rewrite (upd_other _ _ _ _ n) by lia. assert (i < n) by lia. specialize (IHn H0). lia.
Qed.
Lemma sumf_le1 : forall f n, (forall i, f i <= 1) -> sumf f n <= n.
Proof. induction n; cbn; intros H; auto. specialize (IHn H). specialize (H n). lia. Qed.
Lemma sumf_full : forall f n, (forall i, f i <= 1) -> sumf f n = n -> forall i, i < n -> f i = 1.
Proof.
  induction n; cbn; intros L H i Hi; [lia|]. pose proof (sumf_le1 f n L). pose proof (L n). pose proof (L i).
  destruct (Nat.eq_dec i n); [subst; lia|]. apply IHn; auto; lia.
Qed.
Lemma sumf_lt : forall f n, (forall i, f i <= 1) -> forall i, i < n -> f i = 0 -> sumf f n < n.
Proof.
  intros. pose proof (sumf_le1 f n H). destruct (Nat.eq_dec (sumf f n) n); [|lia].
  pose proof (sumf_full f n H e i H0). lia.
Qed.
Lemma sumf_ex : forall f n, sumf f n < n -> exists i, i < n /\ f i = 0.
Proof.
  induction n; cbn; intros H; [lia|]. destruct (f n) eqn:E; [exists n; auto|].
  destruct IHn as (i & ? & ?); [lia|]. exists i. auto.
Qed.
Lemma sumf_pos : forall f n i, i < n -> f i <= sumf f n.
Proof. induction n; cbn; intros i H; [lia|]. destruct (Nat.eq_dec i n); [subst; lia|]. specialize (IHn i ltac:(lia)). lia. Qed.
Lemma sumf_two : forall f n i j, i < n -> j < n -> i <> j -> f i + f j <= sumf f n.
Proof.
  induction n; cbn; intros i j Hi Hj N; [lia|].
  destruct (Nat.eq_dec i n); [subst; pose proof (sumf_pos f n j); lia|].
  destruct (Nat.eq_dec j n); [subst; pose proof (sumf_pos f n i); lia|].
  specialize (IHn i j). lia.
Qed.

(** * Classification of the program points *)
Definition c_cnt (d : dpc) : nat := match d with D7 | D8 | DD => 1 | _ => 0 end.
Definition c_hold (d : dpc) : nat := match d with D3 | D4 => 1 | _ => 0 end.
Definition put (d : dpc) : bool := match d with D4 | D6 | D7 | D8 | DD => true | _ => false end.
Definition o_hold (o : opc) : nat := match o with R2 | R3 | R5 | E3 | E4 _ | E5 | E6 | E7 => 1 | _ => 0 end.
Definition counted (s : st) : nat := sumf (fun i => c_cnt (dp s i)) (rn s).
Definition holders (s : st) : nat := sumf (fun i => c_hold (dp s i)) (rn s).
Definition exposed (s : st) (j : nat) : Prop := j < rn s /\ dp s j = D0 /\ op s <> OChk j /\ op s <> OReq j.
Definition k_ok (s : st) (k : kpc) : Prop :=
  match k with
  | KIdle | KKind => True
  | KTest | KLock => kfail s = true
  | KLoop i n => kfail s = true /\ n <= rn s /\ forall j, exposed s j -> i <= j < n
  | KCall i n | KReq i n => kfail s = true /\ i < n <= rn s /\ forall j, exposed s j -> i <= j < n
  | KWait i n => kfail s = true /\ i < n <= rn s /\ dp s i <> D0 /\ forall j, exposed s j -> i <= j < n
  | KEnd => kfail s = true /\ forall j, ~ exposed s j
  end.
Definition o_ok (s : st) : Prop :=
  match op s with
  | OChk i | OReq i => rn s = S i
  | OWaitReq i => rn s = S i /\ dp s i <> D0
  | OFail _ k => k <> KIdle /\ k_ok s k
  | R3 => kwait s = true
  | RW => kwait s = true /\ (sig s = true <-> cn s = rn s)
  | R4 | R5 | E7 => cn s = rn s
  | _ => True
  end.
Definition ch_ok (s : st) : Prop :=
  match op s with
  | E4 _ | E5 | E6 | E7 => chan s = Some (rn s)
  | OEnd => match chan s with Some c => c = rn s | None => cn s = rn s end
  | _ => chan s = None
  end.
Definition undrained (s : st) : list nat := match op s with E4 l => l | E5 => [] | _ => resp s end.
Definition avail (t : list obs) (s : st) : list nat := received t ++ concat (results t) ++ chq s ++ undrained s.

Record core (s : st) : Prop := {
  m_new : forall i, rn s <= i -> dp s i = D0 /\ slots s i = false;
  m_cn : cn s = counted s;
  m_lock : holders s + o_hold (op s) = if lock s then 1 else 0;
  m_ch0 : chan s = None -> chq s = [] /\ closed s = false;
  m_ch1 : ch_ok s;
  m_d34 : forall i, c_hold (dp s i) = 1 -> chan s = None;
  m_d58 : forall i, match dp s i with D5 | D6 | D7 | D8 => chan s <> None | _ => True end;
  m_d7 : forall i, match dp s i with D7 | D8 => cn s = rn s | _ => True end;
  m_closed : closed s = true -> cn s = rn s;
  m_slot : forall i, i < rn s -> slots s i = false -> put (dp s i) = true;
  m_drained : match op s with E6 | E7 => resp s = [] | OEnd => resp s = [] | _ => True end;
  m_und : forall x, In x (undrained s) -> put (dp s x) = true;
  m_op : o_ok s;
  m_k : forall k, k_ok s (kp s k) }.

Ltac fields := cbn [rn cn slots resp chan chq closed kfail kwait lock sig reg dp kp op
  w_rn w_cn w_slot w_resp w_chan w_chq w_closed w_kfail w_kwait w_lock w_sig w_reg w_dp w_kp w_op] in *.

(** * The steps *)
Definition kstep (s : st) (k : kpc) (o : list obs) (s' : st) (k' : kpc) : Prop :=
  match k with
  | KKind => o = [] /\ s' = w_kfail s true /\ k' = KTest
  | KTest => o = [] /\ s' = s /\ (cn s = rn s /\ k' = KEnd \/ cn s <> rn s /\ k' = KLock)
  | KLock => o = [] /\ s' = s /\ lock s = false /\ k' = KLoop 0 (rn s)
  | KLoop i n => o = [] /\ s' = s /\ (i < n /\ slots s i = true /\ k' = KCall i n \/ i < n /\ slots s i = false /\ k' = KLoop (S i) n \/ n <= i /\ k' = KEnd)
  | KCall i n => o = [] /\ s' = s /\ k' = KReq i n
  | KReq i n => (o = [OPerform i] /\ dp s i = D0 /\ s' = w_dp s i D1 \/ o = [] /\ dp s i <> D0 /\ s' = s) /\ k' = KWait i n
  | KWait i n => o = [] /\ s' = s /\ dp s i = DD /\ k' = KLoop (S i) n
  | KIdle | KEnd => False
  end.
Lemma step_fail_spec : forall s k o s' k', step_fail s k = KNext o s' k' -> kstep s k o s' k'.
Proof.
  intros s k o s' k'. destruct k; cbn [step_fail kstep]; try congruence; intros E.
  - injection E as <- <- <-. auto.
  - injection E as <- <- <-. destruct (Nat.eqb_spec (cn s) (rn s)); auto 8.
  - destruct (lock s); [discriminate|]. injection E as <- <- <-; auto 8.
  - destruct (Nat.ltb_spec i n); [destruct (slots s i) eqn:?|]; injection E as <- <- <-; split; auto; split; auto.
  - destruct (slots s i); [injection E as <- <- <-; auto|discriminate].
  - unfold fail_req in E. destruct (dp s i) eqn:F; injection E as <- <- <-; split; auto; try (right; split; [auto|split; [congruence|auto]]).
  - destruct (dp s i) eqn:F; try discriminate. injection E as <- <- <-; auto 8.
Qed.

Lemma kstep_live : forall s k o s' k', kstep s k o s' k' -> k' <> KIdle.
Proof. intros s k o s' k' H. destruct k; cbn [kstep] in H; intuition congruence. Qed.

Lemma exposed_mono : forall s s', rn s' = rn s -> (forall j, dp s' j = D0 -> dp s j = D0) -> (forall j, op s' <> OChk j -> op s' <> OReq j -> op s <> OChk j /\ op s <> OReq j \/ dp s' j <> D0) ->
  forall j, exposed s' j -> exposed s j.
Proof.
  intros s s' R D O j (A & B & C & E). unfold exposed. rewrite <- R. destruct (O j C E) as [[]|]; [auto 8|contradiction].
Qed.
Lemma k_mono : forall s s' k, rn s <= rn s' -> (kfail s = true -> kfail s' = true) -> (forall j, dp s j <> D0 -> dp s' j <> D0) ->
  (kfail s = true -> forall j, exposed s' j -> exposed s j) -> k_ok s k -> k_ok s' k.
Proof.
  intros s s' k R K D X. destruct k; cbn [k_ok]; auto.
  - intros (A & B & C). split; [auto|split; [lia|auto]].
  - intros (A & B & C). split; [auto|split; [lia|auto]].
  - intros (A & B & C). split; [auto|split; [lia|auto]].
  - intros (A & B & C & E). split; [auto|split; [lia|auto]].
  - intros (A & B). split; auto. intros j H. apply (B j). auto.
Qed.
Lemma cnt_le1 : forall d, c_cnt d <= 1. Proof. destruct d; cbn; lia. Qed.
Lemma hold_le1 : forall d, c_hold d <= 1. Proof. destruct d; cbn; lia. Qed.
Lemma all_done : forall s, core s -> cn s = rn s -> forall i, i < rn s -> c_cnt (dp s i) = 1.
Proof.
  intros s C H. rewrite (m_cn _ C) in H. apply (sumf_full (fun i => c_cnt (dp s i))); auto. intros; apply cnt_le1.
Qed.
Lemma not_done : forall s, core s -> forall i, i < rn s -> c_cnt (dp s i) = 0 -> cn s < rn s.
Proof. intros s C i H E. rewrite (m_cn _ C). apply (sumf_lt (fun i => c_cnt (dp s i))) with i; auto. intros; apply cnt_le1. Qed.
Lemma small : forall s, core s -> forall i, dp s i <> D0 -> i < rn s.
Proof. intros s C i H. destruct (Nat.lt_ge_cases i (rn s)); auto. destruct (m_new _ C i H0). contradiction. Qed.
Lemma lock_dp : forall s, core s -> forall i, c_hold (dp s i) = 1 -> lock s = true /\ o_hold (op s) = 0.
Proof.
  intros s C i H. assert (i < rn s) by (apply (small s C); intros E; rewrite E in H; discriminate).
  pose proof (m_lock _ C). pose proof (sumf_pos (fun i => c_hold (dp s i)) (rn s) i H0). cbn in H2. unfold holders in H1.
  destruct (lock s); lia.
Qed.
Lemma lock_two : forall s, core s -> forall i j, c_hold (dp s i) = 1 -> c_hold (dp s j) = 1 -> i = j.
Proof.
  intros s C i j H G. assert (i < rn s) by (apply (small s C); intros E; rewrite E in H; discriminate).
  assert (j < rn s) by (apply (small s C); intros E; rewrite E in G; discriminate).
  destruct (Nat.eq_dec i j); auto. pose proof (m_lock _ C). pose proof (sumf_two (fun i => c_hold (dp s i)) (rn s) i j H0 H1 n). cbn in H3. unfold holders in H2.
  destruct (lock s); lia.
Qed.

(** a request that is being completed moves; everything else is given pointwise *)
Lemma core_dp : forall s i v s', core s -> i < rn s -> v <> D0 ->
  s' = mkSt (rn s) (cn s') (slots s') (resp s') (chan s) (chq s') (closed s') (kfail s) (kwait s) (lock s') (sig s') (reg s') (upd (dp s) i v) (kp s) (op s) ->
  cn s <= cn s' -> cn s' + c_cnt (dp s i) = cn s + c_cnt v ->
  (if lock s' then 1 else 0) + c_hold (dp s i) = (if lock s then 1 else 0) + c_hold v ->
  (chan s = None -> chq s' = [] /\ closed s' = false) ->
  (c_hold v = 1 -> chan s = None) ->
  (match v with D5 | D6 | D7 | D8 => chan s <> None | _ => True end) ->
  (match v with D7 | D8 => cn s' = rn s | _ => True end) ->
  (closed s' = true -> cn s' = rn s) ->
  (forall j, j < rn s -> slots s' j = false -> put (upd (dp s) i v j) = true) ->
  (forall j, rn s <= j -> slots s' j = false) ->
  (put (dp s i) = true -> put v = true) ->
  (resp s' = resp s \/ resp s' = resp s ++ [i] /\ put v = true /\ c_cnt (dp s i) = 0 /\ chan s = None /\ o_hold (op s) = 0) ->
  (match op s with RW => sig s' = true <-> cn s' = rn s | _ => True end) ->
  core s'.
Proof.
  intros s i v s' C Hi V0 E Mono Ecn Elk Hc0 H34 H58 H7 Hcl Hsl Hsn Hp Hr Hsig.
  pose proof (sumf_upd c_cnt (dp s) i v (rn s) Hi) as Sc. pose proof (sumf_upd c_hold (dp s) i v (rn s) Hi) as Sh.
  pose proof (m_cn _ C) as Mc. pose proof (m_lock _ C) as Ml. unfold counted, holders in *.
  assert (Top : cn s' <= rn s).
  { assert (Q := sumf_le1 (fun j => c_cnt (upd (dp s) i v j)) (rn s) ltac:(intros; apply cnt_le1)). lia. }
  assert (Nz : forall j, dp s j <> D0 -> upd (dp s) i v j <> D0).
  { intros j Hj. destruct (Nat.eq_dec j i); [subst; rewrite upd_same; auto|rewrite upd_other; auto]. }
  assert (Kk : forall k, k_ok s k -> k_ok s' k).
  { intros k. apply k_mono; rewrite E; fields; auto. intros _. apply exposed_mono; fields; auto.
    intros j. destruct (Nat.eq_dec j i); [subst; rewrite upd_same; congruence|rewrite upd_other; auto]. }
  pose proof (m_op _ C) as Mo. pose proof (m_ch1 _ C) as Mc1.
  constructor; rewrite E; cbn [rn cn slots resp chan chq closed kfail kwait lock sig reg dp kp op].
  - intros j Hj. rewrite upd_other by lia. split; [apply (m_new _ C j Hj)|auto].
  - unfold counted. fields. lia.
  - unfold holders. fields. lia.
  - auto.
  - unfold ch_ok in *. fields. destruct (op s); auto. destruct (chan s); auto. lia.
  - intros j. destruct (Nat.eq_dec j i); [subst; rewrite upd_same; auto|rewrite upd_other; auto]. apply (m_d34 _ C).
  - intros j. destruct (Nat.eq_dec j i); [subst; rewrite upd_same; auto|rewrite upd_other; auto]. apply (m_d58 _ C).
  - intros j. destruct (Nat.eq_dec j i); [subst; rewrite upd_same; auto|rewrite upd_other; auto].
    pose proof (m_d7 _ C j). destruct (dp s j); auto; lia.
  - auto.
  - intros j. apply Hsl.
  - pose proof (m_drained _ C) as Md. unfold ch_ok in Mc1. destruct Hr as [Hr|(_ & _ & A & B & D)]; [rewrite Hr; auto|].
    destruct (op s); auto; try discriminate. rewrite B in Mc1. pose proof (not_done s C i Hi A). lia.
  - intros x Hx. assert (In x (undrained s) \/ x = i /\ put v = true) as [Q|[-> Q]].
    { unfold undrained in *. fields. destruct Hr as [Hr|(Hr & P & _ & B & D)].
      - rewrite Hr in Hx. auto.
      - destruct (op s); try discriminate; rewrite Hr in Hx; apply in_app_iff in Hx; destruct Hx as [|[|[]]]; auto. }
    + pose proof (m_und _ C x Q). destruct (Nat.eq_dec x i); [subst; rewrite upd_same; auto|rewrite upd_other; auto].
    + rewrite upd_same. auto.
  - unfold o_ok in *. fields. destruct (op s); auto; try lia.
    + destruct Mo; split; auto.
    + destruct Mo; split; auto. rewrite <- E. auto.
    + destruct Mo; split; auto.
  - intros k. rewrite <- E. apply Kk. apply (m_k _ C).
Qed.
(** the owner moves *)
Lemma core_op : forall s p s', core s ->
  s' = mkSt (rn s) (cn s) (slots s') (resp s') (chan s') (chq s') (closed s') (kfail s) (kwait s') (lock s') (sig s') (reg s') (dp s) (kp s) p -> 
  (if lock s' then 1 else 0) + o_hold (op s) = (if lock s then 1 else 0) + o_hold p ->
  (kfail s = true -> forall j, j < rn s -> dp s j = D0 -> p <> OChk j -> p <> OReq j -> op s <> OChk j /\ op s <> OReq j) ->
  (chan s' = None -> chq s' = [] /\ closed s' = false) ->
  ch_ok s' ->
  (chan s' = chan s \/ forall i, c_hold (dp s i) = 0) ->
  (chan s' = None -> chan s = None) ->
  (closed s' = true -> cn s = rn s) ->
  (forall j, j < rn s -> slots s' j = false -> put (dp s j) = true) ->
  (forall j, rn s <= j -> slots s' j = false) ->
  match p with E6 | E7 => resp s' = [] | OEnd => resp s' = [] | _ => True end ->
  (forall x, In x (undrained s') -> put (dp s x) = true) ->
  o_ok s' -> core s'.
Proof.
  intros s p s' C E Lk Ex H0 H1 Hh Hn Hc Hs Hsn Hd Hu Ho.
  assert (Kk : forall k, k_ok s k -> k_ok s' k).
  { intros k. apply k_mono; rewrite E; fields; auto. intros K j (A & B & D & F). fields. destruct (Ex K j A B D F). unfold exposed. auto. }
  pose proof (m_lock _ C) as Ml. unfold holders in Ml.
  constructor.
  - rewrite E; fields. intros i Hi. split; [apply (m_new _ C i Hi)|auto].
  - rewrite E. unfold counted. fields. apply (m_cn _ C).
  - rewrite E. unfold holders. fields. lia.
  - rewrite E; fields. auto.
  - auto.
  - rewrite E; fields. intros i Hi. destruct Hh as [->|Hh]; [apply (m_d34 _ C i Hi)|specialize (Hh i); congruence].
  - rewrite E; fields. intros i. pose proof (m_d58 _ C i). destruct (dp s i); auto; intros F; auto.
  - rewrite E; fields. apply (m_d7 _ C).
  - rewrite E; fields. auto.
  - rewrite E; fields. auto.
  - rewrite E; fields. auto.
  - intros x Hx. rewrite E. fields. auto.
  - auto.
  - intros k. apply Kk. rewrite E. fields. apply (m_k _ C).
Qed.
(** a canceler moves *)
Lemma core_kp : forall s k p, core s -> k_ok s p -> core (w_kp s k p).
Proof.
  intros s k p C H.
  assert (Kk : forall q, k_ok s q -> k_ok (w_kp s k p) q).
  { intros q. apply k_mono; fields; auto. }
  destruct C. constructor; fields; auto.
  - intros j. destruct (Nat.eq_dec j k); [subst; rewrite upd_same|rewrite upd_other by auto]; auto.
Qed.
Lemma core_kfail : forall s, core s -> core (w_kfail s true).
Proof.
  intros s C. assert (Kk : forall q, k_ok s q -> k_ok (w_kfail s true) q).
  { intros q. apply k_mono; fields; auto. }
  destruct C. constructor; fields; auto.
  unfold o_ok in *. fields. destruct (op s); auto. destruct m_op0; split; auto.
Qed.
Lemma core_perform : forall s i, core s -> i < rn s -> dp s i = D0 -> core (w_dp s i D1).
Proof.
  intros s i C Hi E. apply (core_dp s i D1); fields; auto; try (rewrite ?E; cbn; lia); try discriminate.
  - apply (m_ch0 _ C).
  - apply (m_closed _ C).
  - intros j Hj Sj. pose proof (m_slot _ C j Hj Sj) as P. destruct (Nat.eq_dec j i); [subst; rewrite E in P; discriminate|rewrite upd_other; auto].
  - intros j Hj. apply (m_new _ C j Hj).
  - pose proof (m_op _ C) as Mo. unfold o_ok in Mo. destruct (op s); auto. apply Mo.
Qed.
(** the loop of performFailAll *)
Lemma core_kstep : forall s k o s' k', core s -> k_ok s k -> kstep s k o s' k' -> core s' /\ k_ok s' k' /\ rn s' = rn s /\ op s' = op s /\ kp s' = kp s.
Proof.
  intros s k o s' k' C K. destruct k; cbn [kstep k_ok] in *; try tauto.
  - intros (-> & -> & ->). fields. split; [apply core_kfail; auto|split; [reflexivity|auto]].
  - intros (-> & -> & [[A ->]|[A ->]]); split; auto; split; auto; cbn; auto.
    split; auto. intros j (B & D & _). pose proof (all_done s C A j B). rewrite D in H. discriminate.
  - intros (-> & -> & A & ->); split; auto; split; auto; cbn.
    split; auto. split; [lia|]. intros j (B & _). lia.
  - destruct K as (K1 & K2 & K3). intros (-> & -> & [(A & B & ->)|[(A & B & ->)|(A & ->)]]); split; auto; split; auto; cbn.
    + split; auto.
    + split; auto. split; auto. intros j Hj. pose proof (K3 j Hj). destruct Hj as (P & Q & _).
      destruct (Nat.eq_dec j i); [|lia]. subst. pose proof (m_slot _ C i P B) as T. rewrite Q in T. discriminate.
    + split; auto. intros j Hj. specialize (K3 j Hj). lia.
  - intros (-> & -> & ->). auto.
  - destruct K as (K1 & K2 & K3). intros [[(-> & D & ->)|(-> & D & ->)] ->].
    + assert (core (w_dp s i D1)) by (apply core_perform; auto; lia). split; auto. split; auto. cbn [k_ok]. fields.
      split; auto. split; auto. split; [rewrite upd_same; discriminate|].
      intros j Hj. apply K3. revert j Hj. apply exposed_mono; fields; auto.
      intros j. destruct (Nat.eq_dec j i); [subst; rewrite upd_same; congruence|rewrite upd_other; auto].
    + split; auto. split; auto. cbn [k_ok]. auto.
  - destruct K as (K1 & K2 & K3 & K4). intros (-> & -> & A & ->); split; auto; split; auto; cbn [k_ok].
    split; auto. split; [lia|]. intros j Hj. pose proof (K4 j Hj). destruct Hj as (P & Q & _).
    destruct (Nat.eq_dec j i); [|lia]. subst. contradiction.
Qed.
(** * The core invariant holds at every step *)
Lemma core_init : core m_init.
Proof. constructor; cbn; auto; try discriminate; try lia. Qed.
Lemma not_holding : forall s, core s -> lock s = false -> o_hold (op s) = 0 /\ forall i, c_hold (dp s i) = 0.
Proof.
  intros s C L. pose proof (m_lock _ C) as M. rewrite L in M. split; [lia|]. intros i.
  destruct (c_hold (dp s i)) eqn:E; auto. destruct n; [|pose proof (hold_le1 (dp s i)); lia].
  destruct (lock_dp s C i E). congruence.
Qed.
Lemma owner_holds : forall s, core s -> o_hold (op s) = 1 -> lock s = true /\ forall i, c_hold (dp s i) = 0.
Proof.
  intros s C L. split; [pose proof (m_lock _ C) as M; rewrite L in M; destruct (lock s); auto; lia|]. intros i.
  destruct (c_hold (dp s i)) eqn:E; auto. destruct n; [|pose proof (hold_le1 (dp s i)); lia].
  destruct (lock_dp s C i E). congruence.
Qed.
Lemma sig_same : forall s, core s -> match op s with RW => sig s = true <-> cn s = rn s | _ => True end.
Proof. intros s C. pose proof (m_op _ C) as M. unfold o_ok in M. destruct (op s); auto. apply M. Qed.
Lemma core_resp : forall s i o s', core s -> step_resp s i = (o, Some s') -> core s'.
Proof.
  intros s i o s' C H. unfold step_resp, ok in H.
  assert (Hi : dp s i <> D0 -> i < rn s) by apply (small s C).
  assert (Sl : forall v, put v = true \/ put (dp s i) = false -> forall j, j < rn s -> slots s j = false -> put (upd (dp s) i v j) = true).
  { intros v Hv j Hj Sj. pose proof (m_slot _ C j Hj Sj). destruct (Nat.eq_dec j i); [subst; rewrite upd_same; destruct Hv; congruence|rewrite upd_other; auto]. }
  assert (Sn : forall j, rn s <= j -> slots s j = false) by (intros j Hj; apply (m_new _ C j Hj)).
  pose proof (m_d58 _ C i) as D58. pose proof (m_ch0 _ C) as Mc0. pose proof (m_closed _ C) as Mcl. pose proof (sig_same s C) as Sg. pose proof (m_d7 _ C i) as D7c.
  assert (Mh : c_hold (dp s i) = 1 -> chan s = None /\ lock s = true /\ o_hold (op s) = 0).
  { intros A. split; [apply (m_d34 _ C i A)|apply (lock_dp s C i A)]. }
  assert (Full : c_cnt (dp s i) = 0 -> i < rn s -> cn s < rn s) by (intros; apply (not_done s C i); auto).
  destruct (dp s i) eqn:E; try (injection H as <- <-; auto; fail).
  all: assert (Hi' : i < rn s) by (apply Hi; congruence).
  - (* D1 *)
    injection H as <- <-. apply (core_dp s i (match chan s with None => D2 | _ => D5 end)); fields; auto; try (destruct (chan s) eqn:Ec; rewrite ?E; cbn; lia || discriminate).
    all: rewrite ?E; destruct (chan s); cbn; auto; discriminate.
  - (* D2 *)
    destruct (lock s) eqn:L; [injection H as <- <-; auto|]. destruct (chan s) eqn:Ec; injection H as <- <-;
    [apply (core_dp s i D5)|apply (core_dp s i D3)]; fields; auto; rewrite ?E, ?L, ?Ec; cbn; auto; try lia; try discriminate.
  - (* D3 *)
    destruct (Mh eq_refl) as (Mh1 & Mh2 & Mh3). injection H as <- <-.
    apply (core_dp s i D4); fields; auto; rewrite ?E, ?Mh2; cbn; auto; try lia; try discriminate.
    + intros j Hj. destruct (Nat.eq_dec j i); [subst; rewrite !upd_same; auto|]. rewrite !upd_other by auto. intros Sj. apply (m_slot _ C j Hj Sj).
    + intros j Hj. rewrite upd_other by lia. auto.
    + right. auto.
  - (* D4 *)
    destruct (Mh eq_refl) as (Mh1 & Mh2 & Mh3). specialize (Full eq_refl Hi'). cbn [cn rn w_cn kwait] in H.
    pose proof (m_op _ C) as Mo. destruct (Mc0 Mh1) as [Mq Mcl'].
    destruct ((S (cn s) =? rn s) && kwait s) eqn:B; injection H as <- <-; apply (core_dp s i DD); fields; auto; rewrite ?E, ?Mh2; cbn; auto; try lia; try discriminate; try congruence.
    all: unfold o_ok in Mo; destruct (op s); auto; destruct Mo as (K & Q); rewrite K, andb_true_r in B.
    + apply Nat.eqb_eq in B. tauto.
    + apply Nat.eqb_neq in B. split; [intros X; apply Q in X; lia|lia].
  - (* D5 *)
    destruct (closed s) eqn:Ec; [discriminate|]. destruct (chan s) as [c|] eqn:Ech; [|injection H as <- <-; auto].
    destruct (Nat.ltb_spec (length (chq s)) c); [|injection H as <- <-; auto]. injection H as <- <-.
    apply (core_dp s i D6); fields; auto; rewrite ?E, ?Ech; cbn; auto; try lia; try discriminate. rewrite Ec. discriminate.
  - (* D6 *)
    specialize (Full eq_refl Hi'). cbn [cn rn w_cn] in H.
    assert (Cl : closed s = false) by (destruct (closed s) eqn:Q; auto; pose proof (Mcl eq_refl); lia).
    destruct (Nat.eqb_spec (S (cn s)) (rn s)) as [F|F]; injection H as <- <-;
      [apply (core_dp s i D7)|apply (core_dp s i DD)]; fields; auto; rewrite ?E; cbn; auto; try lia; try discriminate; try (intros X; congruence).
    all: pose proof (m_ch1 _ C) as M1; unfold ch_ok in M1; cbn in D58; destruct (op s); auto; contradiction.
  - (* D7 *)
    destruct (closed s) eqn:Ec; [discriminate|]. injection H as <- <-.
    apply (core_dp s i D8); fields; auto; rewrite ?E; cbn; auto; try lia; try discriminate. intros; contradiction.
  - (* D8 *)
    injection H as <- <-. apply (core_dp s i DD); fields; auto; rewrite ?E; cbn; auto; try lia; try discriminate.
Qed.
Lemma core_owner : forall s o s', core s -> step_owner s = (o, Some s') -> core s'.
Proof.
  intros s o s' C H. unfold step_owner, ok in H.
  pose proof (m_op _ C) as Mo. pose proof (m_ch1 _ C) as Mc. pose proof (m_ch0 _ C) as Mc0. pose proof (m_closed _ C) as Mcl. pose proof (m_slot _ C) as Ms.
  pose proof (m_drained _ C) as Md.
  assert (Sn : forall j, rn s <= j -> slots s j = false) by (intros j Hj; apply (m_new _ C j Hj)).
  pose proof (m_und _ C) as Mu. unfold o_ok, ch_ok, undrained in Mo, Mc, Mu.
  assert (Hold : o_hold (op s) = 1 -> lock s = true /\ forall i, c_hold (dp s i) = 0) by apply (owner_holds s C).
  assert (Lk : lock s = false -> forall i, c_hold (dp s i) = 0) by (intros L; apply (not_holding s C L)).
  destruct (op s) eqn:Eo.
  - injection H as <- <-. auto.
  - (* OChk *)
    destruct (kfail s) eqn:K; injection H as <- <-.
    + apply (core_op s (OReq i)); fields; auto; unfold ch_ok, undrained, o_ok; fields; rewrite ?Eo; cbn; auto; try discriminate.
      intros _ j _ _ _ Q. split; congruence.
    + apply (core_op s O0); fields; auto; unfold ch_ok, undrained, o_ok; fields; rewrite ?Eo; cbn; auto; try discriminate. congruence.
  - (* OReq *)
    unfold fail_req in H.
    assert (forall s1, core s1 -> op s1 = OReq i -> chan s1 = None -> rn s1 = S i -> dp s1 i <> D0 -> resp s1 = resp s -> (forall x, In x (resp s) -> put (dp s1 x) = true) -> core (w_op s1 (OWaitReq i))) as Aux.
    { intros s1 C1 E1 N1 R1 D1 P1 U1. apply (core_op s1 (OWaitReq i)); fields; auto; unfold ch_ok, undrained, o_ok; fields; rewrite ?E1; cbn; auto; try discriminate.
      - intros _ j Hj Dj _ _. split; [discriminate|]. intros X. congruence.
      - apply (m_ch0 _ C1).
      - apply (m_closed _ C1).
      - apply (m_slot _ C1).
      - intros j Hj. apply (m_new _ C1 j). lia.
      - rewrite P1. auto. }
    destruct (dp s i) eqn:Ed; injection H as <- <-.
    2-10: apply Aux; auto; congruence.
    apply Aux; fields; auto; [apply core_perform; auto; lia|rewrite upd_same; discriminate|].
    intros x Hx. specialize (Mu x Hx). destruct (Nat.eq_dec x i); [subst; rewrite Ed in Mu; discriminate|rewrite upd_other; auto].
  - (* OWaitReq *)
    destruct Mo as [Mo1 Mo2].
    destruct (dp s i) eqn:Ed; injection H as <- <-; auto.
    apply (core_op s O0); fields; auto; unfold ch_ok, undrained, o_ok; fields; rewrite ?Eo; cbn; auto; try discriminate. intros; split; discriminate.
  - (* OTest *)
    injection H as <- <-. destruct (kfail s && negb (cn s =? rn s)) eqn:B;
    [apply (core_op s (OFail m KLock))|apply (core_op s (OLock m))]; fields; auto; unfold ch_ok, undrained, o_ok; fields; rewrite ?Eo; cbn; auto; try discriminate; try (intros; split; discriminate).
    apply andb_prop in B. split; [discriminate|tauto].
  - (* OFail *)
    assert (k = KEnd \/ k <> KEnd) as [Ek|Ek] by (destruct k; auto; right; discriminate).
    { subst k. injection H as <- <-. apply (core_op s (OLock m)); fields; auto; unfold ch_ok, undrained, o_ok; fields; rewrite ?Eo; cbn; auto; try discriminate; intros; split; discriminate. }
    assert (H' : match step_fail s k with KPanic => ([OPanicNil], None) | KBlock => ([], Some s) | KNext o s k => (o, Some (w_op s (OFail m k))) end = (o, Some s')) by (destruct k; auto; contradiction). clear H.
    destruct (step_fail s k) as [| |o1 s1 k1] eqn:Sf; [discriminate|injection H' as <- <-; auto|]. injection H' as <- <-.
    assert (Ks : core s1 /\ k_ok s1 k1 /\ rn s1 = rn s /\ op s1 = op s /\ kp s1 = kp s).
    { destruct Mo as [Mi Mo]. eapply core_kstep; [exact C|exact Mo|apply step_fail_spec; exact Sf]. }
    assert (Ki : k1 <> KIdle).
    { destruct Mo as [Mi _]. apply step_fail_spec in Sf; auto. apply kstep_live in Sf. auto. }
    destruct Ks as (C1 & K1 & R1 & O1 & _). rewrite Eo in O1.
    pose proof (m_ch1 _ C1) as M1. unfold ch_ok in M1. rewrite O1 in M1.
    assert (Kx : k_ok (w_op s1 (OFail m k1)) k1).
    { revert K1. apply k_mono; fields; auto. intros _. apply exposed_mono; fields; auto.
      intros j _ _. rewrite O1. left. split; discriminate. }
    pose proof (m_und _ C1) as U1. unfold undrained in U1. rewrite O1 in U1.
    apply (core_op s1 (OFail m k1)); fields; auto; rewrite ?O1; cbn [o_hold]; auto; try discriminate.
    + intros; split; discriminate.
    + apply (m_ch0 _ C1).
    + apply (m_closed _ C1).
    + apply (m_slot _ C1).
    + intros j Hj. apply (m_new _ C1 j Hj).
    + split; auto.
  - (* OLock *)
    destruct (lock s) eqn:L; injection H as <- <-; auto.
    apply (core_op s (match m with MResults => R2 | MEach => E3 end)); fields; auto; unfold ch_ok, undrained, o_ok; fields; rewrite ?Eo, ?L; destruct m; cbn; auto; try discriminate; intros; split; discriminate.
  - (* R2 *)
    injection H as <- <-. apply (core_op s R3); fields; auto; unfold ch_ok, undrained, o_ok; fields; rewrite ?Eo; cbn; auto; try discriminate; intros; split; discriminate.
  - (* R3 *)
    destruct (Hold eq_refl) as [L _]. destruct (Nat.ltb_spec (cn s) (rn s)); injection H as <- <-.
    + apply (core_op s RW); fields; auto; unfold ch_ok, undrained, o_ok; fields; rewrite ?Eo, ?L; cbn; auto; try discriminate; try (intros; split; discriminate).
      unfold o_ok; fields. split; auto. split; [discriminate|lia].
    + apply (core_op s R5); fields; auto; unfold ch_ok, undrained, o_ok; fields; rewrite ?Eo, ?L; cbn; auto; try discriminate; try (intros; split; discriminate).
      unfold o_ok; fields. pose proof (m_cn _ C). unfold counted in *. pose proof (sumf_le1 (fun i => c_cnt (dp s i)) (rn s) ltac:(intros; apply cnt_le1)). lia.
  - (* RW *)
    destruct (sig s) eqn:Es; injection H as <- <-; auto.
    apply (core_op s R4); fields; auto; unfold ch_ok, undrained, o_ok; fields; rewrite ?Eo; cbn; auto; try discriminate; try (intros; split; discriminate).
    unfold o_ok; fields. apply Mo. auto.
  - (* R4 *)
    destruct (lock s) eqn:L; injection H as <- <-; auto.
    apply (core_op s R5); fields; auto; unfold ch_ok, undrained, o_ok; fields; rewrite ?Eo, ?L; cbn; auto; try discriminate; try (intros; split; discriminate).
  - (* R5 *)
    destruct (Hold eq_refl) as [L _]. injection H as <- <-.
    apply (core_op s OEnd); fields; auto; unfold ch_ok, undrained, o_ok; fields; rewrite ?Eo, ?L; cbn; auto; try discriminate; try (intros; split; discriminate).
    unfold ch_ok; fields. rewrite Mc. auto.
  - (* E3 *)
    destruct (Hold eq_refl) as [L Hn]. injection H as <- <-.
    apply (core_op s (E4 (resp s))); fields; auto; unfold ch_ok, undrained, o_ok; fields; rewrite ?Eo, ?L; cbn; auto; try discriminate; try (intros; split; discriminate).
  - (* E4 *)
    destruct (Hold eq_refl) as [L Hn]. destruct l as [|x l].
    + injection H as <- <-. apply (core_op s E5); fields; auto; unfold ch_ok, undrained, o_ok; fields; rewrite ?Eo, ?L; cbn; auto; try discriminate; try (intros; split; discriminate).
    + destruct (closed s) eqn:Ecl; [discriminate|]. destruct (length (chq s) <? rn s); injection H as <- <-; auto.
      apply (core_op s (E4 l)); fields; auto; unfold ch_ok, undrained, o_ok; fields; rewrite ?Eo, ?L; cbn; auto; try discriminate; try (intros; split; discriminate); try congruence.
      * intros j Hj. destruct (Nat.eq_dec j x); [subst; intros _; apply Mu; cbn; auto|rewrite upd_other; auto].
      * intros j Hj. destruct (Nat.eq_dec j x); [subst; rewrite upd_same; auto|rewrite upd_other; auto].
      * intros y Hy. apply Mu. cbn. auto.
  - (* E5 *)
    destruct (Hold eq_refl) as [L Hn]. injection H as <- <-. 
    apply (core_op s E6); fields; auto; unfold ch_ok, undrained, o_ok; fields; rewrite ?Eo, ?L; cbn; auto; try discriminate; try (intros; split; discriminate); intros; contradiction.
  - (* E6 *)
    destruct (Hold eq_refl) as [L Hn]. destruct (Nat.eqb_spec (cn s) (rn s)); injection H as <- <-;
    [apply (core_op s E7)|apply (core_op s OEnd)]; fields; auto; unfold ch_ok, undrained, o_ok; fields; rewrite ?Eo, ?L; cbn; auto; try discriminate; try (intros; split; discriminate).
    rewrite Mc. auto.
  - (* E7 *)
    destruct (Hold eq_refl) as [L Hn]. destruct (closed s); [discriminate|]. injection H as <- <-.
    apply (core_op s OEnd); fields; auto; unfold ch_ok, undrained, o_ok; fields; rewrite ?Eo, ?L; cbn; auto; try discriminate; try (intros; split; discriminate).
    + rewrite Mc. discriminate.
    + rewrite Mc. auto.
  - injection H as <- <-. auto.
Qed.
Lemma core_canc : forall s k o s', core s -> step_canc s k = (o, Some s') -> core s'.
Proof.
  intros s k o s' C H. unfold step_canc, ok in H. pose proof (m_k _ C k) as K.
  destruct (kp s k) as [| | | | | | | |] eqn:E; try (injection H as <- <-; auto; fail).
  all: destruct (step_fail s _) as [| |o1 s1 k1] eqn:Sf in H; [discriminate|injection H as <- <-; auto|];
    apply step_fail_spec in Sf;
    destruct (core_kstep s _ o1 s1 k1 C K Sf) as (C1 & K1 & _);
    destruct k1; injection H as <- <-; apply core_kp; auto.
Qed.
Lemma core_issue : forall s, core s -> op s = O0 -> core (w_op (w_rn (w_slot s (rn s) true) (S (rn s))) (OChk (rn s))).
Proof.
  intros s C E. pose proof (m_ch1 _ C) as M1. unfold ch_ok in M1. rewrite E in M1.
  destruct (m_new _ C (rn s) (le_n _)) as [Dn Sn].
  assert (Kk : forall k, k_ok s k -> k_ok (w_op (w_rn (w_slot s (rn s) true) (S (rn s))) (OChk (rn s))) k).
  { intros k. apply k_mono; fields; auto. intros _ j (A & B & D & F). fields. unfold exposed. rewrite E.
    split; [|split; [auto|split; discriminate]]. destruct (Nat.eq_dec j (rn s)); [congruence|lia]. }
  destruct (m_ch0 _ C M1) as [Q Cl].
  constructor; fields; auto.
  - intros i Hi. rewrite upd_other by lia. apply (m_new _ C). lia.
  - unfold counted; fields; cbn [sumf]. rewrite Dn. cbn. apply (m_cn _ C).
  - unfold holders; fields; cbn [sumf]. rewrite Dn. cbn. pose proof (m_lock _ C) as L. rewrite E in L. cbn in L. unfold holders in L. lia.
  - intros i. pose proof (m_d58 _ C i). destruct (dp s i); auto; contradiction.
  - intros i. pose proof (m_d58 _ C i). destruct (dp s i); auto; contradiction.
  - congruence.
  - intros i Hi. destruct (Nat.eq_dec i (rn s)); [subst; rewrite upd_same; discriminate|rewrite upd_other by auto]. apply (m_slot _ C). lia.
  - pose proof (m_und _ C) as U. unfold undrained in *. fields. rewrite E in U. auto.
  - reflexivity.
  - intros k. apply Kk. apply (m_k _ C).
Qed.
Lemma core_step : forall s e o s', core s -> step s e = (o, Some s') -> core s'.
Proof.
  intros s e o s' C H. destruct e; cbn [step] in H; unfold ok in H.
  - destruct (op s) eqn:E; injection H as <- <-; auto. apply core_issue; auto.
  - destruct (op s) eqn:E; injection H as <- <-; auto. pose proof (m_ch1 _ C) as M1. pose proof (m_und _ C) as U. unfold ch_ok, undrained in *. rewrite E in M1, U.
    apply (core_op s (OTest MResults)); fields; auto; unfold ch_ok, undrained, o_ok; fields; rewrite ?E; cbn; auto; try discriminate; try (intros; split; discriminate).
    + apply (m_ch0 _ C).
    + apply (m_closed _ C).
    + apply (m_slot _ C).
    + intros j Hj. apply (m_new _ C j Hj).
  - destruct (op s) eqn:E; injection H as <- <-; auto. pose proof (m_ch1 _ C) as M1. pose proof (m_und _ C) as U. unfold ch_ok, undrained in *. rewrite E in M1, U.
    apply (core_op s (OTest MEach)); fields; auto; unfold ch_ok, undrained, o_ok; fields; rewrite ?E; cbn; auto; try discriminate; try (intros; split; discriminate).
    + apply (m_ch0 _ C).
    + apply (m_closed _ C).
    + apply (m_slot _ C).
    + intros j Hj. apply (m_new _ C j Hj).
  - destruct (Nat.ltb_spec i (rn s)); [|injection H as <- <-; auto]. destruct (dp s i) eqn:E; injection H as <- <-; auto. apply core_perform; auto.
  - destruct (kp s k) eqn:E; injection H as <- <-; auto. apply core_kp; cbn; auto.
  - pose proof (m_ch1 _ C) as M1. unfold ch_ok in M1. destruct (op s) eqn:E; try (injection H as <- <-; auto; fail).
    destruct (chan s) as [c|] eqn:Ec; [|injection H as <- <-; auto]. destruct (chq s) as [|x l] eqn:Eq.
    + destruct (closed s); injection H as <- <-; auto.
    + injection H as <- <-. destruct C. constructor; fields; auto; try congruence.
  - eapply core_resp; eauto.
  - eapply core_canc; eauto.
  - eapply core_owner; eauto.
Qed.
