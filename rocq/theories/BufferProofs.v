(** Invariants of the backlog. *)
From Coq Require Import List Bool Arith Lia.
Import ListNotations.
From Verif Require Import BufferModel BufferSpec.

Lemma bufRow_pos : bufRow <> 0. Proof. discriminate. Qed.
Global Opaque bufRow.
Ltac fields := cbn [cap ch rows nrow rowid cells hRow tRow head tail token cp pcs rst chained lp
  w_ch w_rows w_alloc w_cells w_hRow w_tRow w_head w_tail w_token w_cp w_pc w_rst w_chained w_lp] in *.
Lemma upd_same {A} (f : nat -> A) k v : upd f k v k = v.
Proof. unfold upd. now rewrite Nat.eqb_refl. Qed.
Lemma upd_other {A} (f : nat -> A) k v i : i <> k -> upd f k v i = f i.
Proof. intros N. unfold upd. destruct (Nat.eqb_spec i k); [contradiction|reflexivity]. Qed.
Lemma upd2_same f p j v : upd2 f p j v p j = v.
Proof. unfold upd2. now rewrite !Nat.eqb_refl. Qed.
Lemma upd2_other f p j v q i : (q <> p \/ i <> j) -> upd2 f p j v q i = f q i.
Proof. intros N. unfold upd2. destruct (Nat.eqb_spec q p), (Nat.eqb_spec i j); cbn [andb]; try reflexivity. tauto. Qed.

(** subsequences *)
Lemma subseq_refl {A} (l : list A) : subseq l l.
Proof. induction l; constructor; auto. Qed.
Lemma subseq_app_r {A} (a b c : list A) : subseq a b -> subseq a (b ++ c).
Proof. induction 1; cbn [app]; constructor; auto. Qed.
Lemma subseq_snoc {A} (a b : list A) x : subseq a b -> subseq (a ++ [x]) (b ++ [x]).
Proof.
  induction 1; cbn [app]; try (constructor; auto).
  induction l; cbn [app]; [apply subseq_refl|]. constructor. assumption.
Qed.
Lemma subseq_in {A} (a b : list A) : subseq a b -> forall x, In x a -> In x b.
Proof. induction 1; intros y IN; cbn [In] in *; [contradiction| |auto]. destruct IN; auto. Qed.
Lemma subseq_nodup {A} (a b : list A) : subseq a b -> NoDup b -> NoDup a.
Proof.
  induction 1; intros ND; [constructor| |]; inversion ND; subst; [|auto].
  constructor; [|auto]. intros IN. eapply subseq_in in IN; eauto.
Qed.
Lemma subseq_trans {A} (a b c : list A) : subseq a b -> subseq b c -> subseq a c.
Proof.
  intros AB BC. revert a AB. induction BC; intros a' AB.
  - inversion AB; subst. constructor.
  - inversion AB; subst; constructor; auto.
  - constructor. auto.
Qed.
Lemma subseq_firstn {A} n (l : list A) : subseq (firstn n l) l.
Proof. revert l. induction n; intros [|x l]; cbn [firstn]; constructor; auto. Qed.
Lemma firstn_S {A} n (l : list A) x : nth_error l n = Some x -> firstn (S n) l = firstn n l ++ [x].
Proof.
  revert l. induction n; intros [|y l] E; try discriminate.
  - injection E as ->. reflexivity.
  - cbn [nth_error] in E. change (firstn (S (S n)) (y :: l)) with (y :: firstn (S n) l). rewrite (IHn _ E). reflexivity.
Qed.
Lemma nth_error_snoc {A} (l : list A) x i y : nth_error (l ++ [x]) i = Some y <-> nth_error l i = Some y \/ (i = length l /\ y = x).
Proof.
  destruct (Nat.lt_ge_cases i (length l)) as [L|L].
  - rewrite nth_error_app1 by assumption. split; [auto|]. intros [?|[-> _]]; [assumption|lia].
  - rewrite nth_error_app2 by assumption. assert (N := proj2 (nth_error_None l i) L). rewrite N.
    destruct (Nat.eq_dec i (length l)) as [->|NE].
    + rewrite Nat.sub_diag. cbn [nth_error]. split; [intros [= ->]; auto|intros [?|[_ ->]]; [discriminate|reflexivity]].
    + destruct (i - length l) as [|k] eqn:Q; [lia|]. cbn [nth_error]. destruct k; cbn [nth_error];
      (split; [discriminate|intros [?|[? _]]; [discriminate|contradiction]]).
Qed.
Lemma nth_error_inj {A} (l : list A) i j x : NoDup l -> nth_error l i = Some x -> nth_error l j = Some x -> i = j.
Proof.
  intros ND E F. assert (L : i < length l) by (apply nth_error_Some; congruence).
  apply (proj1 (NoDup_nth_error l) ND i j L). congruence.
Qed.

(** how far a Send is *)
Definition stg (c : ppc) : nat :=
  match c with
  | PNone | PCheck | PTail | PHead _ | PTry | PAdd => 0
  | PRow _ | PLook _ => 1
  | PChain _ _ => 2
  | PMark _ _ _ => 3
  | PWake => 4
  | PRet => 5
  end.
Definition pidx (c : ppc) : option nat :=
  match c with PRow i | PLook i | PChain i _ | PMark i _ _ => Some i | _ => None end.
Definition pptr (c : ppc) : option ptr := match c with PChain _ p | PMark _ p _ => Some p | _ => None end.
Definition got (l : lpc) : bool := match l with LPend _ | LSend _ | LInc => true | _ => false end.
Definition taken (s : st) (i : nat) : Prop := i < head s \/ (i = head s /\ got (lp s) = true).
Definition cellok (s : st) (i : nat) (r : rid) (c : cell) : Prop :=
  (creq c = None \/ creq c = Some r) /\
  match pcs s r with
  | PMark _ _ true => (cst c = CNew \/ (cst c = CFree /\ rst s r = RDone)) /\ (creq c = None -> rst s r = RDone)
  | PMark _ _ false => cst c = CNew /\ rst s r <> RPend
  | PWake | PRet => cst c <> CNew /\ (rst s r = RPend -> taken s i \/ (cst c = CSet /\ creq c = Some r))
  | _ => c = cell0
  end.
Definition qok (s : st) (bl : list rid) (q : option rid) : Prop :=
  exists r, nth_error bl (head s) = Some r /\ 4 <= stg (pcs s r) /\ (q = Some r \/ (q = None /\ rst s r <> RPend)).
Definition lpok (s : st) (bl hs : list rid) : Prop :=
  match lp s with
  | LRecv | LExit | LTest => True
  | LRow => head s < tail s
  | LState p => head s < tail s /\ p < nrow s /\ rowid s p = head s / bufRow
  | LReq p => (exists r, nth_error bl (head s) = Some r /\ 4 <= stg (pcs s r)) /\ p < nrow s /\ rowid s p = head s / bufRow
  | LFree p q => qok s bl q /\ p < nrow s /\ rowid s p = head s / bufRow
  | LPend q => qok s bl q
  | LSend r => nth_error bl (head s) = Some r /\ 4 <= stg (pcs s r)
  | LInc => exists r, nth_error bl (head s) = Some r /\ 3 <= stg (pcs s r) /\ (In r hs \/ rst s r <> RPend)
  end.
Definition done (s : st) : nat := match lp s with LInc => S (head s) | _ => head s end.
Definition active (c : ppc) : bool := (1 <=? stg c) && (stg c <=? 4).

Record BI (s : st) (t : list obs) : Prop := {
  b_tail : tail s = length (queued t);
  b_nd : NoDup (queued t);
  b_nop : forall r, pcs s r = PNone -> ~ In r (sent t);
  b_sent : forall r, pcs s r <> PNone -> In r (sent t);
  b_ndsent : NoDup (sent t);
  b_early : forall r, stg (pcs s r) = 0 -> ~ In r (queued t) /\ ~ In r (direct t) /\ chained s r = None;
  b_mid : forall r, 1 <= stg (pcs s r) <= 4 -> In r (queued t);
  b_idx : forall r i, pidx (pcs s r) = Some i -> nth_error (queued t) i = Some r;
  b_dir : NoDup (direct t) /\ (forall r, In r (direct t) -> pcs s r = PRet /\ ~ In r (queued t));
  b_ret : forall r, pcs s r = PRet -> In r (direct t) \/ In r (queued t) \/ rst s r = RDone;
  b_inj : forall p q, p < nrow s -> q < nrow s -> rowid s p = rowid s q -> p = q;
  b_rows : forall b p, In (b, p) (rows s) -> p < nrow s /\ rowid s p = b;
  b_live : forall p, p < nrow s -> head s / bufRow <= rowid s p -> In (rowid s p, p) (rows s);
  b_ptrs : hRow s < nrow s /\ tRow s < nrow s;
  b_pptr : forall r i p, pidx (pcs s r) = Some i -> pptr (pcs s r) = Some p -> p < nrow s /\ rowid s p = i / bufRow;
  b_alloc : forall r i, nth_error (queued t) i = Some r -> 2 <= stg (pcs s r) -> exists p, p < nrow s /\ rowid s p = i / bufRow;
  b_chained : forall r p j, chained s r = Some (p, j) -> p < nrow s /\ 3 <= stg (pcs s r) /\ (forall i q, pcs s r <> PMark i q false) /\
     exists i, nth_error (queued t) i = Some r /\ rowid s p = i / bufRow /\ j = i mod bufRow;
  b_fresh : forall p j, nrow s <= p -> cells s p j = cell0;
  b_cell : forall p i, p < nrow s -> rowid s p = i / bufRow ->
     match nth_error (queued t) i with
     | None => cells s p (i mod bufRow) = cell0
     | Some r => cellok s i r (cells s p (i mod bufRow))
     end;
  b_head : head s <= tail s;
  b_past : forall i r, i < head s -> nth_error (queued t) i = Some r -> 3 <= stg (pcs s r);
  b_lp : lpok s (queued t) (handed t);
  b_hands : subseq (handed t) (firstn (done s) (queued t));
  b_served : forall i r, i < head s -> nth_error (queued t) i = Some r -> In r (handed t) \/ rst s r <> RPend;
  b_wake : lp s = LRecv -> token s = false -> head s < tail s -> exists r, active (pcs s r) = true }.

Lemma BI0 n : BI (b_init n) [].
Proof.
  unfold b_init. split; fields; cbn [queued sent direct handed flat_map length stg In]; try tauto; try (intros; lia); try (apply NoDup_nil); try (apply sub_nil); try discriminate; try (intros; discriminate).
  - split; [apply NoDup_nil|intros r []].
  - intros b p [[= <- <-]|[]]. split; [lia|reflexivity].
  - intros p L _. left. f_equal. lia.
  - intros p i L E. destruct i; reflexivity.
  - unfold lpok. fields. exact Logic.I.
Qed.

(** [x ∈ list] facts about traces *)
Ltac traces := unfold queued, sent, direct, handed, given, returned, worked in *;
  rewrite ?flat_map_app in *; cbn [flat_map app] in *; rewrite ?app_nil_r in *.
Ltac fold_tr := repeat match goal with |- context [flat_map ?f ?t] => first [change (flat_map f t) with (queued t)|change (flat_map f t) with (sent t)|change (flat_map f t) with (direct t)|change (flat_map f t) with (handed t)] end.
Lemma tr_app o t : queued (t ++ o) = queued t ++ queued o /\ sent (t ++ o) = sent t ++ sent o /\ direct (t ++ o) = direct t ++ direct o /\ handed (t ++ o) = handed t ++ handed o.
Proof. unfold queued, sent, direct, handed. rewrite !flat_map_app. auto. Qed.
(** traces of which only some parts count *)
Lemma BI_trace s t t' : BI s t -> queued t' = queued t -> sent t' = sent t -> direct t' = direct t -> handed t' = handed t -> BI s t'.
Proof. intros B Q S D H. destruct B. split; rewrite ?Q, ?S, ?D, ?H; assumption. Qed.

Lemma NoDup_app_snoc {A} (l : list A) x : NoDup l -> ~ In x l -> NoDup (l ++ [x]).
Proof.
  induction l as [|y l IH]; intros ND NI; cbn [app]; [constructor; [intros []|constructor]|].
  inversion ND; subst. constructor; [|apply IH; [assumption|intros IN; apply NI; now right]].
  rewrite in_app_iff. intros [IN|[<-|[]]]; [contradiction|]. apply NI. now left.
Qed.
Lemma nth_in {A} (l : list A) i x : nth_error l i = Some x -> In x l.
Proof. apply nth_error_In. Qed.
Ltac split_r r0 r := destruct (Nat.eq_dec r0 r) as [->|NE]; [rewrite ?upd_same in *|rewrite ?(upd_other _ _ _ _ NE) in *].

(** cellok depends on the owner and on what the loop took *)
Lemma cellok_same s s' i r c : cellok s i r c -> pcs s' r = pcs s r -> rst s' r = rst s r -> (taken s i -> taken s' i) -> cellok s' i r c.
Proof.
  unfold cellok. intros [A B] P R T. rewrite P, R. split; [exact A|].
  destruct (pcs s r); try exact B; destruct B as [B1 B2]; (split; [exact B1|]); intros Q; destruct (B2 Q); auto.
Qed.

Definition same_heap (s s' : st) : Prop :=
  rows s' = rows s /\ nrow s' = nrow s /\ rowid s' = rowid s /\ cells s' = cells s /\ hRow s' = hRow s /\ tRow s' = tRow s /\
  head s' = head s /\ tail s' = tail s /\ token s' = token s /\ chained s' = chained s /\ lp s' = lp s.
(** a Send without a place in the backlog: no request in the backlog is affected *)
Lemma BI_out s t s' o r pc : BI s t -> same_heap s s' -> stg (pcs s r) = 0 ->
  pcs s' r = pc -> (forall x, x <> r -> pcs s' x = pcs s x) -> (forall x, x <> r -> rst s' x = rst s x) ->
  (stg pc = 0 /\ pc <> PNone /\ direct o = [] \/ pc = PRet /\ (direct o = [r] \/ (direct o = [] /\ rst s' r = RDone))) ->
  (sent o = [] /\ pcs s r <> PNone \/ sent o = [r] /\ pcs s r = PNone) -> queued o = [] -> handed o = [] -> BI s' (t ++ o).
Proof.
  intros B (H1 & H2 & H3 & H4 & H5 & H6 & H7 & H8 & H9 & H10 & H11) S0 P1 PO RO DIR SE QE HE.
  assert (NQ : ~ In r (queued t)) by apply (b_early _ _ B r S0).
  assert (PI : pidx pc = None) by (destruct DIR as [(X & _ & _)|[-> _]]; [destruct pc; cbn in *; congruence|reflexivity]).
  assert (PN : pc <> PNone) by (destruct DIR as [(_ & X & _)|[-> _]]; [exact X|discriminate]).
  destruct (tr_app o t) as (T1 & T2 & T3 & T4). rewrite QE, app_nil_r in T1. rewrite HE, app_nil_r in T4.
  assert (OTH : forall i r0, nth_error (queued t) i = Some r0 -> pcs s' r0 = pcs s r0 /\ rst s' r0 = rst s r0).
  { intros i r0 E. assert (r0 <> r) by (intros ->; apply NQ; eapply nth_in; eauto). auto. }
  assert (DR : forall x, In x (direct (t ++ o)) <-> In x (direct t) \/ (x = r /\ direct o = [r])).
  { intros x. rewrite T3, in_app_iff. destruct DIR as [(_ & _ & ->)|[_ [->|[-> _]]]]; cbn [In]; intuition congruence. }
  assert (SR : forall x, In x (sent (t ++ o)) <-> In x (sent t) \/ (x = r /\ pcs s r = PNone)).
  { intros x. rewrite T2, in_app_iff. destruct SE as [[-> ?]|[-> ?]]; cbn [In]; intuition congruence. }
  destruct B. split; rewrite ?T1, ?T4, ?H1, ?H2, ?H3, ?H4, ?H5, ?H6, ?H7, ?H8, ?H9, ?H10, ?H11; auto.
  - intros x E. destruct (Nat.eq_dec x r) as [->|NE]; [congruence|]. rewrite (PO x NE) in E. rewrite SR. intros [IN|[? _]]; [|contradiction].
    exact (b_nop0 x E IN).
  - intros x E. rewrite SR. destruct (Nat.eq_dec x r) as [->|NE]; [|rewrite (PO x NE) in E; left; auto].
    destruct SE as [[_ N]|[_ N]]; [left; auto|auto].
  - rewrite T2. destruct SE as [[-> _]|[-> N]]; [now rewrite app_nil_r|].
    apply NoDup_app_snoc; auto.
  - intros x E. destruct (Nat.eq_dec x r) as [->|NE].
    + destruct (b_early0 r S0) as (X1 & X2 & X3). split; [|split]; auto. rewrite DR. intros [IN|[_ Q]]; [auto|].
      destruct DIR as [(_ & _ & Q')|[Q' _]]; [congruence|rewrite P1, Q' in E; discriminate].
    + rewrite (PO x NE) in E. destruct (b_early0 x E) as (X1 & X2 & X3). split; [|split]; auto. rewrite DR. tauto.
  - intros x E. destruct (Nat.eq_dec x r) as [->|NE]; [|rewrite (PO x NE) in E; auto].
    rewrite P1 in E. destruct DIR as [(Q & _)|[Q _]]; [lia|rewrite Q in E; cbn in E; lia].
  - intros x i E. destruct (Nat.eq_dec x r) as [->|NE]; [congruence|rewrite (PO x NE) in E; auto].
  - destruct b_dir0 as [D1 D2]. split.
    + rewrite T3. destruct DIR as [(_ & _ & ->)|[_ [->|[-> _]]]]; rewrite ?app_nil_r; auto.
      apply NoDup_app_snoc; [exact D1|]. apply (b_early0 r S0).
    + intros x IN. apply DR in IN. destruct IN as [IN|[-> Q]].
      * destruct (D2 x IN) as [E N]. assert (x <> r) by (intros ->; rewrite E in S0; discriminate). rewrite PO by assumption. auto.
      * split; [|exact NQ]. rewrite P1. destruct DIR as [(_ & _ & Q')|[Q' _]]; [congruence|exact Q'].
  - intros x E. rewrite DR. destruct (Nat.eq_dec x r) as [->|NE].
    + rewrite P1 in E. destruct DIR as [(Q & _)|[_ [Q|[_ Q]]]]; [rewrite E in Q; discriminate|auto|auto].
    + rewrite (PO x NE) in E. rewrite (RO x NE). destruct (b_ret0 x E) as [X|[X|X]]; auto.
  - intros x i p E F. destruct (Nat.eq_dec x r) as [->|NE]; [congruence|]. rewrite (PO x NE) in *. eauto.
  - intros x i E. destruct (OTH i x E) as [-> _]. eauto.
  - intros x p j E. destruct (b_chained0 x p j E) as (X1 & X2 & X3 & X4).
    assert (NE : x <> r) by (intros ->; lia). rewrite (PO x NE). split; [|split; [|split]]; auto.
  - intros p i L E. specialize (b_cell0 p i L E). destruct (nth_error (queued t) i) as [x|] eqn:Q; [|exact b_cell0].
    destruct (OTH i x Q). eapply cellok_same; [exact b_cell0|assumption|assumption|]. unfold taken. rewrite H7, H11. auto.
  - intros i x L E. destruct (OTH i x E) as [-> _]. eauto.
  - unfold lpok, qok in *. rewrite H7, H11, ?H2, ?H3, ?H8. destruct (lp s); try exact b_lp0.
    + destruct b_lp0 as ((x & E & X) & Y). split; [|exact Y]. exists x. destruct (OTH _ x E) as [E1 E2]. rewrite ?E1, ?E2. auto.
    + destruct b_lp0 as ((x & E & X & Z) & Y). split; [|exact Y]. exists x. destruct (OTH _ x E) as [E1 E2]. rewrite ?E1, ?E2. auto.
    + destruct b_lp0 as (x & E & X). exists x. destruct (OTH _ x E) as [E1 E2]. rewrite ?E1, ?E2. auto.
    + destruct b_lp0 as (E & X). destruct (OTH _ _ E) as [E1 _]. rewrite ?E1. auto.
    + destruct b_lp0 as (x & E & X). exists x. destruct (OTH _ x E) as [E1 E2]. rewrite ?E1, ?E2. auto.
  - unfold done in *. rewrite H7, H11. exact b_hands0.
  - intros i x L E. destruct (OTH i x E) as [_ ->]. eauto.
  - intros X Y Z. destruct (b_wake0 X Y Z) as (x & A). exists x. rewrite PO; [exact A|]. intros ->.
    unfold active in A. rewrite S0 in A. discriminate.
Qed.

(** a request leaves the pending state *)
Lemma BI_rst s t r v : BI s t -> v = RDone \/ (v = RFly /\ rst s r = RPend) -> BI (w_rst s r v) t.
Proof.
  intros B V. assert (NV : v <> RPend) by (destruct V as [->|[-> _]]; discriminate).
  assert (MO : forall x, upd (rst s) r v x = RPend -> rst s x = RPend).
  { intros x. destruct (Nat.eq_dec x r) as [->|NE]; [rewrite upd_same; congruence|now rewrite upd_other]. }
  assert (DO : forall x, rst s x = RDone -> upd (rst s) r v x = RDone).
  { intros x. destruct (Nat.eq_dec x r) as [->|NE]; [rewrite upd_same|now rewrite upd_other]. destruct V as [->|[_ ->]]; congruence. }
  destruct B. split; fields; auto.
  - intros x E. destruct (b_ret0 x E) as [X|[X|X]]; auto.
  - intros p i L E. specialize (b_cell0 p i L E). destruct (nth_error (queued t) i) as [x|]; [|exact b_cell0].
    unfold cellok, taken in *. fields. destruct b_cell0 as [A C]. split; [exact A|]. destruct (pcs s x); try exact C.
    + destruct c.
      * destruct C as [[C|[C D]] E1]; auto.
      * destruct C as [C D]. split; auto.
    + destruct C as [C D]. split; auto.
    + destruct C as [C D]. split; auto.
  - unfold lpok, qok in *. fields. destruct (lp s); try exact b_lp0.
    + destruct b_lp0 as ((x & E & X & [Z|[Z W]]) & Y); (split; [|exact Y]); (exists x; split; [exact E|split; [exact X|]]); [left; exact Z|right; split; auto].
    + destruct b_lp0 as (x & E & X & [Z|[Z W]]); (exists x; split; [exact E|split; [exact X|]]); [left; exact Z|right; split; auto].
    + destruct b_lp0 as (x & E & X & [Z|Z]); (exists x; split; [exact E|split; [exact X|]]); [left; exact Z|right; auto].
  - intros i x L E. destruct (b_served0 i x L E); auto.
Qed.

(** PAdd: the request gets a place *)
Lemma BI_queue s t r : BI s t -> pcs s r = PAdd -> BI (w_pc (w_tail s (S (tail s))) r (PRow (tail s))) (t ++ [OQueue r]).
Proof.
  intros B P. assert (S0 : stg (pcs s r) = 0) by now rewrite P.
  destruct (b_early _ _ B r S0) as (NQ & ND & NC).
  destruct (tr_app [OQueue r] t) as (T1 & T2 & T3 & T4). cbn [queued sent direct handed flat_map app] in T1, T2, T3, T4. rewrite app_nil_r in T2, T3, T4.
  assert (TL := b_tail _ _ B).
  assert (OTH : forall i x, nth_error (queued t) i = Some x -> upd (pcs s) r (PRow (tail s)) x = pcs s x).
  { intros i x E. apply upd_other. intros ->. apply NQ. eapply nth_in; eauto. }
  assert (HL := b_head _ _ B).
  assert (OLD : forall i x, i < head s -> nth_error (queued t ++ [r]) i = Some x -> nth_error (queued t) i = Some x).
  { intros i x L E. apply nth_error_snoc in E. destruct E as [E|[-> _]]; [exact E|lia]. }
  destruct B. split; fields; rewrite ?T1, ?T2, ?T3, ?T4; auto.
  - rewrite app_length. cbn. lia.
  - apply NoDup_app_snoc; auto.
  - intros x E. split_r x r; [discriminate|auto].
  - intros x E. split_r x r; [apply b_sent0; congruence|auto].
  - intros x E. split_r x r; [discriminate|]. destruct (b_early0 x E) as (X1 & X2 & X3). split; [|split]; auto.
    rewrite in_app_iff. cbn [In]. intuition.
  - intros x E. rewrite in_app_iff. split_r x r; [right; now left|left; auto].
  - intros x i E. apply nth_error_snoc. split_r x r; [|left; auto]. injection E as <-. right. auto.
  - destruct b_dir0 as [D1 D2]. split; [exact D1|]. intros x IN. destruct (D2 x IN) as [E N].
    assert (NE : x <> r) by congruence. rewrite upd_other by assumption. split; [exact E|].
    rewrite in_app_iff. cbn [In]. intuition.
  - intros x E. split_r x r; [discriminate|]. destruct (b_ret0 x E) as [X|[X|X]]; auto. right. left. apply in_or_app. auto.
  - intros x i p E F. split_r x r; [discriminate|eauto].
  - intros x i E F. apply nth_error_snoc in E. destruct E as [E|[-> ->]]; [rewrite (OTH i x E) in F; eauto|].
    rewrite upd_same in F. cbn in F. lia.
  - intros x p j E. destruct (b_chained0 x p j E) as (X1 & X2 & X3 & (i & X4 & X5)). rewrite (OTH i x X4).
    split; [|split; [|split]]; auto. exists i. split; [|exact X5]. apply nth_error_snoc. auto.
  - intros p i L E. specialize (b_cell0 p i L E). destruct (nth_error (queued t) i) as [x|] eqn:Q.
    + rewrite (proj2 (nth_error_snoc _ _ _ _) (or_introl Q)). eapply cellok_same; [exact b_cell0|fields; eauto|reflexivity|].
      unfold taken. fields. auto.
    + destruct (nth_error (queued t ++ [r]) i) as [x|] eqn:Q'; [|exact b_cell0].
      apply nth_error_snoc in Q'. destruct Q' as [Q'|[-> ->]]; [congruence|]. unfold cellok. fields. rewrite upd_same, b_cell0.
      split; [left|]; reflexivity.
  - intros i x L E. apply OLD in E; [|exact L]. rewrite (OTH i x E). eauto.
  - unfold lpok, qok in *. fields. destruct (lp s); try exact b_lp0; try (destruct b_lp0; split; [lia|assumption]); try lia.
    + destruct b_lp0 as ((x & E & X) & Y). split; [|exact Y]. exists x. rewrite (OTH _ x E). split; [|exact X]. apply nth_error_snoc; auto.
    + destruct b_lp0 as ((x & E & X) & Y). split; [|exact Y]. exists x. rewrite (OTH _ x E). split; [|exact X]. apply nth_error_snoc; auto.
    + destruct b_lp0 as (x & E & X). exists x. rewrite (OTH _ x E). split; [|exact X]. apply nth_error_snoc; auto.
    + destruct b_lp0 as (E & X). rewrite (OTH _ _ E). split; [|exact X]. apply nth_error_snoc; auto.
    + destruct b_lp0 as (x & E & X). exists x. rewrite (OTH _ x E). split; [|exact X]. apply nth_error_snoc; auto.
  - unfold done in *. fields. rewrite firstn_app. apply subseq_app_r. exact b_hands0.
  - intros i x L E. apply OLD in E; [|exact L]. eauto.
  - intros X Y Z. exists r. rewrite upd_same. reflexivity.
Qed.

(** a Send with a place *)
Lemma divmod_inj i j : i / bufRow = j / bufRow -> i mod bufRow = j mod bufRow -> i = j.
Proof. intros A B. rewrite (Nat.div_mod i bufRow bufRow_pos), (Nat.div_mod j bufRow bufRow_pos). congruence. Qed.
Lemma mod_lt i : i mod bufRow < bufRow.
Proof. apply Nat.mod_upper_bound, bufRow_pos. Qed.
Lemma BI_in s t s' r i pc : BI s t -> nth_error (queued t) i = Some r -> 1 <= stg (pcs s r) ->
  (rows s' = rows s /\ nrow s' = nrow s /\ rowid s' = rowid s /\ hRow s' = hRow s /\ tRow s' = tRow s /\
   head s' = head s /\ tail s' = tail s /\ lp s' = lp s /\ rst s' = rst s) ->
  pcs s' r = pc -> (forall x, x <> r -> pcs s' x = pcs s x) -> stg (pcs s r) <= stg pc ->
  (token s' = true \/ token s' = token s /\ (active pc = active (pcs s r))) ->
  (forall j, pidx pc = Some j -> j = i) -> (forall p, pptr pc = Some p -> p < nrow s /\ rowid s p = i / bufRow) ->
  (2 <= stg pc -> exists p, p < nrow s /\ rowid s p = i / bufRow) ->
  (forall q k, q < nrow s -> rowid s q = i / bufRow /\ k = i mod bufRow \/ cells s' q k = cells s q k) ->
  (forall q k, nrow s <= q -> cells s' q k = cells s q k) ->
  (forall q, q < nrow s -> rowid s q = i / bufRow -> cellok s' i r (cells s' q (i mod bufRow))) ->
  (forall x, x <> r -> chained s' x = chained s x) ->
  (chained s' r = chained s r /\ (forall j q, pc = PMark j q false -> chained s r = None) \/
   3 <= stg pc /\ (forall j q, pc <> PMark j q false) /\ exists p, chained s' r = Some (p, i mod bufRow) /\ p < nrow s /\ rowid s p = i / bufRow) ->
  BI s' t.
Proof.
  intros B QI ST (H1 & H2 & H3 & H5 & H6 & H7 & H8 & H11 & H12) P1 PO MON TOK IX PP AL CO CF CR CHO CHR.
  assert (MN : forall x, stg (pcs s x) <= stg (pcs s' x)).
  { intros x. destruct (Nat.eq_dec x r) as [->|NE]; [rewrite P1; exact MON|rewrite PO; auto]. }
  assert (PN : pc <> PNone) by (intros ->; cbn in MON; lia).
  assert (INQ : In r (queued t)) by (eapply nth_in; eauto).
  assert (SN : pcs s r <> PNone) by (intros E; rewrite E in ST; cbn in ST; lia).
  destruct B. split; rewrite ?H1, ?H2, ?H3, ?H5, ?H6, ?H7, ?H8, ?H11, ?H12; auto.
  - intros x E. destruct (Nat.eq_dec x r) as [->|NE]; [congruence|rewrite PO in E; auto].
  - intros x E. destruct (Nat.eq_dec x r) as [->|NE]; [auto|rewrite PO in E; auto].
  - intros x E. destruct (Nat.eq_dec x r) as [->|NE]; [rewrite P1 in E; lia|]. rewrite PO in E by assumption. rewrite CHO; auto.
  - intros x E. destruct (Nat.eq_dec x r) as [->|NE]; [auto|rewrite PO in E; auto].
  - intros x j E. destruct (Nat.eq_dec x r) as [->|NE]; [rewrite P1 in E|rewrite PO in E; auto]. rewrite (IX j E). exact QI.
  - destruct b_dir0 as [D1 D2]. split; [exact D1|]. intros x IN. destruct (D2 x IN) as [E N].
    assert (NE : x <> r) by congruence. rewrite PO; auto.
  - intros x E. destruct (Nat.eq_dec x r) as [->|NE]; [auto|rewrite PO in E; auto].
  - intros x j p E F. destruct (Nat.eq_dec x r) as [->|NE]; [rewrite P1 in E, F|rewrite PO in E, F by assumption; eauto].
    rewrite (IX j E). auto.
  - intros x j E F. destruct (Nat.eq_dec x r) as [->|NE]; [rewrite P1 in F|rewrite PO in F by assumption; eauto].
    rewrite (nth_error_inj _ j i r b_nd0 E QI). auto.
  - intros x p j E. destruct (Nat.eq_dec x r) as [->|NE].
    + rewrite P1. destruct CHR as [[E1 E2]|(E1 & E2 & (q & E3 & E4 & E5))].
      * rewrite E1 in E. destruct (b_chained0 r p j E) as (X1 & X2 & X3 & X4). split; [exact X1|split; [lia|split; [|exact X4]]].
        intros k q ->. rewrite (E2 k q eq_refl) in E. discriminate.
      * rewrite E3 in E. injection E as <- <-. split; [exact E4|split; [exact E1|split; [exact E2|]]]. exists i. auto.
    + rewrite CHO in E by assumption. rewrite PO by assumption. apply b_chained0. exact E.
  - intros p j L. rewrite CF by exact L. auto.
  - intros p j L E. destruct (Nat.eq_dec j i) as [->|NE]; [rewrite QI; apply CR; auto|].
    assert (SM : cells s' p (j mod bufRow) = cells s p (j mod bufRow)).
    { destruct (CO p (j mod bufRow) L) as [[E1 E2]|E1]; [|exact E1]. destruct NE. apply divmod_inj; congruence. }
    rewrite SM. specialize (b_cell0 p j L E). destruct (nth_error (queued t) j) as [x|] eqn:Q; [|exact b_cell0].
    assert (x <> r) by (intros ->; apply NE; exact (nth_error_inj _ j i r b_nd0 Q QI)).
    eapply cellok_same; [exact b_cell0|auto|now rewrite H12|unfold taken; rewrite H7, H11; auto].
  - intros j x L E. specialize (b_past0 j x L E). specialize (MN x). lia.
  - unfold lpok, qok in *. rewrite H7, H11, ?H2, ?H3, ?H8, ?H12. destruct (lp s); try exact b_lp0.
    + destruct b_lp0 as ((x & E & X) & Y). split; [|exact Y]. exists x. split; [exact E|]. specialize (MN x). lia.
    + destruct b_lp0 as ((x & E & X & Z) & Y). split; [|exact Y]. exists x. split; [exact E|]. split; [specialize (MN x); lia|exact Z].
    + destruct b_lp0 as (x & E & X & Z). exists x. split; [exact E|]. split; [specialize (MN x); lia|exact Z].
    + destruct b_lp0 as (E & X). split; [exact E|]. specialize (MN r0). lia.
    + destruct b_lp0 as (x & E & X & Z). exists x. split; [exact E|]. split; [specialize (MN x); lia|exact Z].
  - unfold done in *. rewrite H7, H11. exact b_hands0.
  - intros X Y Z. destruct TOK as [TOK|[TOK AC]]; [congruence|]. rewrite TOK in Y. destruct (b_wake0 X Y Z) as (x & A). exists x.
    destruct (Nat.eq_dec x r) as [->|NE]; [rewrite P1, AC; exact A|rewrite PO; auto].
Qed.
(** a new row *)
Lemma BI_alloc s t b : BI s t -> (forall p, p < nrow s -> rowid s p <> b) -> (forall i r, i / bufRow = b -> nth_error (queued t) i = Some r -> stg (pcs s r) <= 1) ->
  BI (w_tRow (w_rows (w_alloc s (S (nrow s)) (upd (rowid s) (nrow s) b)) ((b, nrow s) :: rows s)) (nrow s)) t.
Proof.
  intros B NB NS.
  assert (RI : forall p, p < nrow s -> upd (rowid s) (nrow s) b p = rowid s p) by (intros p L; apply upd_other; lia).
  destruct B. split; fields; auto.
  - intros p q L1 L2 E. destruct (Nat.eq_dec p (nrow s)) as [->|N1], (Nat.eq_dec q (nrow s)) as [->|N2];
      rewrite ?upd_same, ?RI in E by lia; [reflexivity|exfalso; apply (NB q); [lia|auto]|exfalso; apply (NB p); [lia|auto]|].
    apply b_inj0; auto; lia.
  - intros c p [[= <- <-]|IN]; [rewrite upd_same; split; [lia|reflexivity]|]. destruct (b_rows0 c p IN) as [L E]. rewrite RI by assumption. split; [lia|exact E].
  - intros p L. cbn [In]. split_r p (nrow s); [auto|]. right. apply b_live0; [lia|assumption].
  - destruct b_ptrs0. split; lia.
  - intros r i p E F. destruct (b_pptr0 r i p E F) as [L G]. rewrite RI by assumption. split; [lia|exact G].
  - intros r i E F. destruct (b_alloc0 r i E F) as (p & L & G). exists p. rewrite RI by assumption. split; [lia|exact G].
  - intros r p j E. destruct (b_chained0 r p j E) as (X1 & X2 & X3 & X4). rewrite RI by assumption. split; [lia|]. auto.
  - intros p j L. apply b_fresh0. lia.
  - intros p i L E. split_r p (nrow s); [|apply b_cell0; [lia|exact E]].
    rewrite b_fresh0 by lia. destruct (nth_error (queued t) i) as [r|] eqn:Q; [|reflexivity].
    specialize (NS i r (eq_sym E) Q). assert (M := b_mid0 r). unfold cellok. fields. split; [now left|].
    destruct (pcs s r) eqn:P; cbn [stg] in NS; try lia; try reflexivity;
    destruct (b_early0 r) as [X _]; try (rewrite P; reflexivity); destruct X; eapply nth_in; eauto.
  - unfold lpok in *. fields. destruct (lp s); try exact b_lp0.
    + destruct b_lp0 as (X & L & Y). rewrite RI by assumption. split; [|split]; auto.
    + destruct b_lp0 as (X & L & Y). rewrite RI by assumption. split; [|split]; auto.
    + destruct b_lp0 as (X & L & Y). rewrite RI by assumption. split; [|split]; auto.
Qed.

(** a step of the loop *)
Lemma BI_lp s t s' o : BI s t ->
  (nrow s' = nrow s /\ rowid s' = rowid s /\ tRow s' = tRow s /\ tail s' = tail s /\ pcs s' = pcs s /\ rst s' = rst s /\ chained s' = chained s) ->
  queued o = [] -> sent o = [] -> direct o = [] ->
  (forall e, In e (rows s') -> In e (rows s)) -> (forall p, p < nrow s -> head s' / bufRow <= rowid s p -> In (rowid s p, p) (rows s')) ->
  hRow s' < nrow s ->
  (forall q k, nrow s <= q -> cells s' q k = cells s q k) ->
  (forall p i r, p < nrow s -> rowid s p = i / bufRow -> nth_error (queued t) i = Some r -> cellok s i r (cells s p (i mod bufRow)) -> cellok s' i r (cells s' p (i mod bufRow))) ->
  (forall p i, p < nrow s -> rowid s p = i / bufRow -> nth_error (queued t) i = None -> cells s' p (i mod bufRow) = cells s p (i mod bufRow)) ->
  head s' <= tail s -> (forall i r, head s <= i < head s' -> nth_error (queued t) i = Some r -> 3 <= stg (pcs s r) /\ (In r (handed t ++ handed o) \/ rst s r <> RPend)) ->
  lpok s' (queued t) (handed t ++ handed o) ->
  subseq (handed t ++ handed o) (firstn (done s') (queued t)) ->
  (lp s' = LRecv -> token s' = false -> head s' < tail s -> exists r, active (pcs s r) = true) ->
  BI s' (t ++ o).
Proof.
  intros B (H1 & H2 & H3 & H4 & H5 & H6 & H7) QE SE DE RW LV HR CF CO CN HT HP LP SUB WK.
  destruct (tr_app o t) as (T1 & T2 & T3 & T4). rewrite QE, app_nil_r in T1. rewrite SE, app_nil_r in T2. rewrite DE, app_nil_r in T3.
  destruct B. split; rewrite ?T1, ?T2, ?T3, ?T4, ?H1, ?H2, ?H3, ?H4, ?H5, ?H6, ?H7; auto.
  - destruct b_ptrs0. auto.
  - intros p j L. rewrite CF by exact L. auto.
  - intros p i L E. specialize (b_cell0 p i L E). destruct (nth_error (queued t) i) as [r|] eqn:Q; [apply CO; auto|rewrite CN; auto].
  - intros i r L E. destruct (Nat.lt_ge_cases i (head s)) as [C|C]; [eauto|]. apply (HP i r); auto.
  - intros i r L E. destruct (Nat.lt_ge_cases i (head s)) as [C|C].
    + destruct (b_served0 i r C E); auto. left. apply in_or_app. auto.
    + apply (HP i r); auto.
Qed.
Lemma look_in m k p : look m k = Some p -> In (k, p) m.
Proof.
  unfold look. destruct (find _ m) as [[b q]|] eqn:F; cbn [option_map]; [|discriminate]. intros [= <-].
  apply find_some in F. cbn [fst snd] in *. destruct F as [IN E]. apply Nat.eqb_eq in E. subst. exact IN.
Qed.
Lemma look_none m k p : look m k = None -> ~ In (k, p) m.
Proof.
  unfold look. destruct (find _ m) eqn:F; cbn [option_map]; [discriminate|]. intros _ IN.
  assert (X := find_none _ _ F _ IN). cbn [fst] in X. rewrite Nat.eqb_refl in X. discriminate.
Qed.
Lemma BI_nil s t : BI s t -> BI s (t ++ []).
Proof. now rewrite app_nil_r. Qed.
Lemma no_row s t i : BI s t -> head s <= i -> look (rows s) (i / bufRow) = None -> forall p, p < nrow s -> rowid s p <> i / bufRow.
Proof.
  intros B L N p LP E. apply (look_none _ _ p N). rewrite <- E. apply (b_live _ _ B); [exact LP|].
  rewrite E. apply Nat.div_le_mono; [apply bufRow_pos|exact L].
Qed.

Lemma push_BI s t r o s' : BI s t -> step_push s r = (o, Some s') -> BI s' (t ++ o).
Proof.
  intros B. unfold step_push, ok. destruct (pcs s r) eqn:P.
  - intros [= <- <-]. now apply BI_nil.
  - destruct (rst s r) eqn:R; intros [= <- <-];
    (eapply (BI_out s t _ _ r); [exact B|unfold same_heap; fields; tauto|now rewrite P|fields; apply upd_same|intros; fields; now apply upd_other|reflexivity| | |reflexivity|reflexivity]);
    fields; rewrite ?R; cbn; auto; try (left; split; [reflexivity|congruence]).
    all: left; repeat split; discriminate.
  - intros [= <- <-].
    (eapply (BI_out s t _ _ r); [exact B|unfold same_heap; fields; tauto|now rewrite P|fields; apply upd_same|intros; fields; now apply upd_other|reflexivity| | |reflexivity|reflexivity]);
    fields; cbn; auto; try (left; split; [reflexivity|congruence]). left; repeat split; discriminate.
  - intros [= <- <-].
    (eapply (BI_out s t _ _ r); [exact B|unfold same_heap; fields; tauto|now rewrite P|fields; apply upd_same|intros; fields; now apply upd_other|reflexivity| | |reflexivity|reflexivity]);
    fields; cbn; auto; try (left; split; [reflexivity|congruence]). left. destruct (tv =? head s); repeat split; discriminate.
  - destruct (full s); intros [= <- <-];
    (eapply (BI_out s t _ _ r); [exact B|unfold same_heap; fields; tauto|now rewrite P|fields; apply upd_same|intros; fields; now apply upd_other|reflexivity| | |reflexivity|reflexivity]);
    fields; cbn; auto; try (left; split; [reflexivity|congruence]). left; repeat split; discriminate.
  - intros [= <- <-]. now apply BI_queue.
  - (* PRow *)
    assert (QI : nth_error (queued t) i = Some r) by (apply (b_idx _ _ B); now rewrite P).
    intros [= <- <-]. apply BI_nil. eapply (BI_in s t _ r i); fields; [exact B|exact QI|rewrite P; cbn; lia|tauto|apply upd_same|intros; now apply upd_other| | | | | | | | | |]; rewrite ?P; auto.
    + destruct (Nat.eqb_spec (rowid s (tRow s)) (i / bufRow)); cbn; lia.
    + right. split; [reflexivity|]. now destruct (Nat.eqb_spec (rowid s (tRow s)) (i / bufRow)).
    + intros j. destruct (Nat.eqb_spec (rowid s (tRow s)) (i / bufRow)); cbn; congruence.
    + intros p. destruct (Nat.eqb_spec (rowid s (tRow s)) (i / bufRow)); cbn; [|discriminate]. intros [= <-]. split; [apply (b_ptrs _ _ B)|assumption].
    + destruct (Nat.eqb_spec (rowid s (tRow s)) (i / bufRow)); cbn; [|lia]. intros _. exists (tRow s). split; [apply (b_ptrs _ _ B)|assumption].
    + intros q L E. assert (C := b_cell _ _ B q i L E). rewrite QI in C. unfold cellok in *. fields. rewrite upd_same. rewrite P in C. 
      destruct C as [C1 C2]. split; [exact C1|]. now destruct (rowid s (tRow s) =? i / bufRow).
    + left. split; [reflexivity|]. intros j q. destruct (rowid s (tRow s) =? i / bufRow); discriminate.
  - (* PLook *)
    assert (QI : nth_error (queued t) i = Some r) by (apply (b_idx _ _ B); now rewrite P).
    destruct (look (rows s) (i / bufRow)) as [p|] eqn:LK; intros [= <- <-]; apply BI_nil.
    + destruct (b_rows _ _ B _ _ (look_in _ _ _ LK)) as [LP RP].
      eapply (BI_in s t _ r i); fields; [exact B|exact QI|rewrite P; cbn; lia|tauto|apply upd_same|intros; now apply upd_other| | | | | | | | | |]; rewrite ?P; cbn [stg pidx pptr active]; auto.
      * intros j [= ->]. reflexivity.
      * intros q [= <-]. auto.
      * intros _. exists p. auto.
      * intros q L E. assert (C := b_cell _ _ B q i L E). rewrite QI in C. unfold cellok in *. fields. rewrite upd_same. now rewrite P in C.
      * left. split; [reflexivity|]. discriminate.
    + assert (HI : head s <= i).
      { destruct (Nat.lt_ge_cases i (head s)) as [L|L]; [|exact L]. assert (X := b_past _ _ B i r L QI). rewrite P in X. cbn in X. lia. }
      assert (NB := no_row s t i B HI LK).
      assert (NS : forall j x, j / bufRow = i / bufRow -> nth_error (queued t) j = Some x -> stg (pcs s x) <= 1).
      { intros j x E F. destruct (Nat.le_gt_cases (stg (pcs s x)) 1) as [L|L]; [exact L|].
        destruct (b_alloc _ _ B x j F L) as (p & LP & RP). destruct (NB p LP). congruence. }
      assert (B2 := BI_alloc s t (i / bufRow) B NB NS).
      eapply (BI_in _ t _ r i (PChain i (nrow s))); [exact B2|exact QI| | | | | | | | | | | | | |]; fields; rewrite ?P; cbn [stg pidx pptr active]; auto 10.
      * apply upd_same.
      * intros; now apply upd_other.
      * intros j [= ->]. reflexivity.
      * intros q [= <-]. rewrite upd_same. split; [lia|reflexivity].
      * intros _. exists (nrow s). rewrite upd_same. split; [lia|reflexivity].
      * intros q L E. assert (C := b_cell _ _ B2 q i). fields. specialize (C L E). rewrite QI in C. unfold cellok in *. fields. rewrite upd_same. now rewrite P in C.
      * left. split; [reflexivity|]. discriminate.
  - (* PChain *)
    assert (QI : nth_error (queued t) i = Some r) by (apply (b_idx _ _ B); now rewrite P).
    destruct (b_pptr _ _ B r i p) as [LP RP]; [now rewrite P|now rewrite P|].
    assert (C0 := b_cell _ _ B p i LP RP). rewrite QI in C0. unfold cellok in C0. rewrite P in C0. destruct C0 as [_ C0].
    assert (NC : chained s r = None).
    { destruct (chained s r) as [[q j]|] eqn:Q; [|reflexivity]. destruct (b_chained _ _ B r q j Q) as (_ & X & _). rewrite P in X. cbn in X. lia. }
    assert (CASES : (rst s r = RNew \/ rst s r = RPend) \/ (rst s r = RFly \/ rst s r = RDone)) by (destruct (rst s r); auto).
    destruct CASES as [R|R].
    + intros E. assert (E' : (o, Some s') = ([] : list obs, Some (w_pc (w_chained (w_cells s (upd2 (cells s) p (i mod bufRow) (mkCell (cst (cells s p (i mod bufRow))) (Some r)))) r (Some (p, i mod bufRow))) r (PMark i p true)))) by (destruct R as [R|R]; rewrite R in E; congruence).
      clear E. injection E' as -> ->. apply BI_nil.
      eapply (BI_in s t _ r i); fields; [exact B|exact QI|rewrite P; cbn; lia|tauto|apply upd_same|intros; now apply upd_other| | | | | | | | | |]; rewrite ?P; cbn [stg pidx pptr active]; auto.
      * intros j [= ->]. reflexivity.
      * intros q [= <-]. auto.
      * intros _. exists p. auto.
      * intros q k L. destruct (Nat.eq_dec q p) as [->|NE]; [|right; apply upd2_other; auto].
        destruct (Nat.eq_dec k (i mod bufRow)) as [->|NE]; [left; auto|right; apply upd2_other; auto].
      * intros q k L. apply upd2_other. lia.
      * intros q L E. assert (q = p) by (apply (b_inj _ _ B); congruence). subst q. rewrite upd2_same, C0. unfold cellok. fields. rewrite upd_same. cbn [creq cst cell0].
        split; [now right|]. split; [now left|discriminate].
      * intros x NE. now apply upd_other.
      * right. split; [lia|]. split; [discriminate|]. exists p. rewrite upd_same. auto.
    + intros E. assert (E' : (o, Some s') = ([] : list obs, Some (w_pc s r (PMark i p false)))) by (destruct R as [R|R]; rewrite R in E; congruence).
      clear E. injection E' as -> ->. apply BI_nil.
      eapply (BI_in s t _ r i); fields; [exact B|exact QI|rewrite P; cbn; lia|tauto|apply upd_same|intros; now apply upd_other| | | | | | | | | |]; rewrite ?P; cbn [stg pidx pptr active]; auto.
      * intros j [= ->]. reflexivity.
      * intros q [= <-]. auto.
      * intros _. exists p. auto.
      * intros q L E. assert (q = p) by (apply (b_inj _ _ B); congruence). subst q. rewrite C0. unfold cellok. fields. rewrite upd_same.
        split; [now left|]. split; [reflexivity|]. destruct R as [R|R]; rewrite R; discriminate.
  - (* PMark *)
    assert (QI : nth_error (queued t) i = Some r) by (apply (b_idx _ _ B); now rewrite P).
    destruct (b_pptr _ _ B r i p) as [LP RP]; [now rewrite P|now rewrite P|].
    assert (C0 := b_cell _ _ B p i LP RP). rewrite QI in C0. unfold cellok in C0. rewrite P in C0. destruct C0 as [C0 C1].
    intros [= <- <-]. apply BI_nil.
    eapply (BI_in s t _ r i); fields; [exact B|exact QI|rewrite P; cbn; lia|tauto|apply upd_same|intros; now apply upd_other| | | | | | | | | |]; rewrite ?P; cbn [stg pidx pptr active]; auto.
    + discriminate.
    + discriminate.
    + intros _. exists p. auto.
    + intros q k L. destruct (Nat.eq_dec q p) as [->|NE]; [|right; apply upd2_other; auto].
      destruct (Nat.eq_dec k (i mod bufRow)) as [->|NE]; [left; auto|right; apply upd2_other; auto].
    + intros q k L. apply upd2_other. lia.
    + intros q L E. assert (q = p) by (apply (b_inj _ _ B); congruence). subst q. rewrite upd2_same. unfold cellok. fields. rewrite upd_same. cbn [creq cst].
      split; [exact C0|]. destruct c.
      * split; [discriminate|]. intros R. right. split; [reflexivity|]. destruct C1 as [_ C1]. destruct C0 as [C0|C0]; [|exact C0]. rewrite (C1 C0) in R. discriminate.
      * split; [discriminate|]. intros R. destruct C1. contradiction.
    + left. split; [reflexivity|discriminate].
  - (* PWake *)
    assert (IQ : In r (queued t)) by (apply (b_mid _ _ B); rewrite P; cbn; lia).
    apply In_nth_error in IQ. destruct IQ as [i QI].
    intros E. assert (E' : (o, Some s') = ([OReturn r], Some (w_pc (w_token s true) r PRet))) by (destruct (cp s); congruence).
    clear E. injection E' as -> ->.
    apply (BI_trace _ t); try (now rewrite ?(proj1 (tr_app _ _)), ?(proj1 (proj2 (tr_app _ _))), ?(proj1 (proj2 (proj2 (tr_app _ _)))), ?(proj2 (proj2 (proj2 (tr_app _ _)))), app_nil_r).
    eapply (BI_in s t _ r i); fields; [exact B|exact QI|rewrite P; cbn; lia|tauto|apply upd_same|intros; now apply upd_other| | | | | | | | | |]; rewrite ?P; cbn [stg pidx pptr active]; auto.
    + discriminate.
    + discriminate.
    + intros _. apply (b_alloc _ _ B r i QI). rewrite P. cbn. lia.
    + intros q L E. assert (C := b_cell _ _ B q i L E). rewrite QI in C. unfold cellok in *. fields. rewrite upd_same. now rewrite P in C.
    + left. split; [reflexivity|discriminate].
  - intros [= <- <-]. now apply BI_nil.
Qed.
Lemma subseq_firstn_le {A} (a l : list A) n m : subseq a (firstn n l) -> n <= m -> subseq a (firstn m l).
Proof.
  intros S L. eapply subseq_trans; [exact S|]. replace (firstn n l) with (firstn n (firstn m l)) by (rewrite firstn_firstn; f_equal; lia).
  apply subseq_firstn.
Qed.
Lemma BI_move s t s' : BI s t ->
  (rows s' = rows s /\ nrow s' = nrow s /\ rowid s' = rowid s /\ cells s' = cells s /\ hRow s' = hRow s /\ tRow s' = tRow s /\ head s' = head s /\
   tail s' = tail s /\ pcs s' = pcs s /\ rst s' = rst s /\ chained s' = chained s) ->
  (got (lp s) = true -> got (lp s') = true) -> (lp s = LInc -> lp s' = LInc) -> lpok s' (queued t) (handed t) ->
  (lp s' = LRecv -> token s' = false -> head s < tail s -> exists r, active (pcs s r) = true) -> BI s' (t ++ []).
Proof.
  intros B (H1 & H2 & H3 & H4 & H5 & H6 & H7 & H8 & H9 & H10 & H11) G I LP W.
  apply (BI_lp s t); auto; rewrite ?H1, ?H5, ?H7, ?H4; try (now repeat split); try (apply B).
  - intros p i r L E Q C. eapply cellok_same; [exact C|now rewrite H9|now rewrite H10|]. unfold taken. rewrite H7. intros [X|[X Y]]; auto.
  - intros i r L. lia.
  - cbn [handed flat_map]. rewrite app_nil_r. exact LP.
  - cbn [handed flat_map]. rewrite app_nil_r. assert (X := b_hands _ _ B). unfold done in *. rewrite H7.
    destruct (lp s) eqn:L; try (eapply subseq_firstn_le; [exact X|destruct (lp s'); lia]). rewrite (I eq_refl). exact X.
Qed.
Lemma owner s t : BI s t -> head s < tail s -> exists r, nth_error (queued t) (head s) = Some r.
Proof.
  intros B L. rewrite (b_tail _ _ B) in L. destruct (nth_error (queued t) (head s)) as [r|] eqn:E; [eauto|].
  apply nth_error_None in E. lia.
Qed.
Lemma stg_q s t i r : BI s t -> nth_error (queued t) i = Some r -> 1 <= stg (pcs s r).
Proof.
  intros B Q. destruct (Nat.eq_dec (stg (pcs s r)) 0) as [E|E]; [|lia]. destruct (b_early _ _ B r E) as [N _]. destruct N. eapply nth_in; eauto.
Qed.
Lemma loop_BI s t o s' : BI s t -> step_loop s = (o, Some s') -> BI s' (t ++ o).
Proof.
  intros B. unfold step_loop, ok. assert (LP := b_lp _ _ B). unfold lpok in LP. destruct (lp s) eqn:L.
  - (* LRecv *)
    destruct (token s) eqn:TK; [|destruct (cp s) eqn:CP]; intros [= <- <-]; try (now apply BI_nil).
    + apply (BI_move s); fields; rewrite ?L; auto 20; try discriminate.
    + apply (BI_lp s t); fields; rewrite ?L; auto 20; try (apply B); try discriminate.
      * intros p i r _ _ _ C. eapply cellok_same; [exact C|reflexivity|reflexivity|]. unfold taken. fields. rewrite L. auto.
      * intros i r X. lia.
      * cbn [handed flat_map]. rewrite app_nil_r. assert (X := b_hands _ _ B). unfold done in *. fields. rewrite L in X. exact X.
  - (* LTest *)
    intros [= <- <-]. apply (BI_move s); fields; rewrite ?L; auto 20; try discriminate.
    + unfold lpok. fields. destruct (Nat.ltb_spec (head s) (tail s)); auto.
    + destruct (Nat.ltb_spec (head s) (tail s)); [discriminate|lia].
  - (* LRow *)
    destruct (Nat.eqb_spec (rowid s (hRow s)) (head s / bufRow)) as [E|E].
    + intros [= <- <-]. apply (BI_move s); fields; rewrite ?L; auto 20; try discriminate. unfold lpok. fields.
      split; [exact LP|]. split; [apply B|exact E].
    + set (rs := match head s / bufRow with O => rows s | S b => mdel (rows s) b end).
      assert (R1 : forall e, In e rs -> In e (rows s)).
      { unfold rs. intros e. destruct (head s / bufRow); [auto|]. unfold mdel. rewrite filter_In. tauto. }
      assert (R2 : forall p, p < nrow s -> head s / bufRow <= rowid s p -> In (rowid s p, p) rs).
      { intros p LP1 LE. assert (IN := b_live _ _ B p LP1 LE). unfold rs. destruct (head s / bufRow) as [|b] eqn:HB; [exact IN|].
        unfold mdel. rewrite filter_In. split; [exact IN|]. cbn [fst]. apply negb_true_iff, Nat.eqb_neq. lia. }
      destruct (look (rows s) (head s / bufRow)) as [p|] eqn:LK; intros [= <- <-].
      * destruct (b_rows _ _ B _ _ (look_in _ _ _ LK)) as [PL PR].
        apply (BI_lp s t); fields; rewrite ?L; auto 20; try (apply B); try discriminate.
        -- intros q i r _ _ _ C. eapply cellok_same; [exact C|reflexivity|reflexivity|]. unfold taken. fields. rewrite L. auto.
        -- intros i r X. lia.
        -- unfold lpok. fields. auto.
        -- cbn [handed flat_map]. rewrite app_nil_r. assert (X := b_hands _ _ B). unfold done in *. fields. rewrite L in X. exact X.
      * apply (BI_lp s t); fields; rewrite ?L; auto 20; try (apply B); try discriminate.
        -- intros q i r _ _ _ C. eapply cellok_same; [exact C|reflexivity|reflexivity|]. unfold taken. fields. rewrite L. auto.
        -- intros i r X. lia.
        -- unfold lpok. fields. exact Logic.I.
        -- cbn [handed flat_map]. rewrite app_nil_r. assert (X := b_hands _ _ B). unfold done in *. fields. rewrite L in X. exact X.
        -- intros _ _ HT. destruct (owner s t B HT) as [r Q]. exists r. unfold active. apply andb_true_iff. split; apply Nat.leb_le; [eapply stg_q; eauto|].
           destruct (Nat.le_gt_cases (stg (pcs s r)) 1) as [X|X]; [lia|].
           destruct (b_alloc _ _ B r (head s) Q X) as (p & PL & PR). destruct (no_row s t (head s) B (le_n _) LK p PL PR).
  - (* LState *)
    destruct LP as (HT & PL & PR). destruct (owner s t B HT) as [r Q].
    assert (C := b_cell _ _ B p (head s) PL PR). rewrite Q in C. unfold cellok in C. destruct C as [C0 C].
    assert (SQ := stg_q s t _ r B Q).
    destruct (cst (cells s p (head s mod bufRow))) eqn:CS; intros [= <- <-].
    + apply (BI_move s); fields; rewrite ?L; auto 20; try discriminate.
      { unfold lpok. fields. exact Logic.I. }
      intros _ _ _. exists r. unfold active. apply andb_true_iff. split; apply Nat.leb_le; [exact SQ|].
      destruct (pcs s r); cbn [stg] in *; try lia. destruct C as [C _]. congruence.
    + apply (BI_move s); fields; rewrite ?L; auto 20; try discriminate.
      unfold lpok. fields. split; [|auto]. exists r. split; [exact Q|].
      destruct (pcs s r); cbn [stg] in *; try lia; try (rewrite C in CS; discriminate).
      destruct c; [destruct C as [[C|[C _]] _]; congruence|destruct C as [C _]; congruence].
    + apply (BI_move s); fields; rewrite ?L; auto 20; try discriminate.
      unfold lpok. fields. exists r. split; [exact Q|].
      destruct (pcs s r); cbn [stg] in *; try lia; try (rewrite C in CS; discriminate).
      * split; [lia|]. right. destruct c; [destruct C as [[C|[_ C]] _]; congruence|destruct C as [C _]; congruence].
      * split; [lia|]. destruct C as [_ C]. right. intros R. destruct (C R) as [[T|[_ T]]|[T _]]; [lia|rewrite L in T; discriminate|congruence].
      * split; [lia|]. destruct C as [_ C]. right. intros R. destruct (C R) as [[T|[_ T]]|[T _]]; [lia|rewrite L in T; discriminate|congruence].
  - (* LReq *)
    destruct LP as ((r & Q & SQ) & PL & PR).
    assert (C := b_cell _ _ B p (head s) PL PR). rewrite Q in C. unfold cellok in C. destruct C as [C0 C].
    intros [= <- <-]. apply (BI_move s); fields; rewrite ?L; auto 20; try discriminate.
    unfold lpok, qok. fields. split; [|auto]. exists r. split; [exact Q|]. split; [exact SQ|].
    destruct C0 as [C0|C0]; [right|left; exact C0]. split; [exact C0|]. intros R.
    destruct (pcs s r); cbn [stg] in *; try lia; destruct C as [_ C]; destruct (C R) as [[T|[_ T]]|[_ T]]; try lia; try congruence; rewrite L in T; discriminate.
  - (* LFree *)
    destruct LP as ((r & Q & SQ & QK) & PL & PR).
    intros [= <- <-]. apply (BI_lp s t); fields; rewrite ?L; auto 20; try (apply B); try discriminate.
    + intros q' k LQ. apply upd2_other. lia.
    + intros q' i x LQ RQ QX C. destruct (Nat.eq_dec i (head s)) as [->|NE].
      * assert (q' = p) by (apply (b_inj _ _ B); congruence). subst q'. rewrite upd2_same. assert (x = r) by congruence. subst x.
        unfold cellok, taken in *. fields. cbn [creq cst]. destruct C as [C0 C]. split; [exact C0|].
        destruct (pcs s r); cbn [stg] in SQ; try lia; (split; [discriminate|]); intros _; left; right; auto.
      * assert (E : cells s q' (i mod bufRow) = upd2 (cells s) p (head s mod bufRow) (mkCell CFree (creq (cells s p (head s mod bufRow)))) q' (i mod bufRow)).
        { symmetry. apply upd2_other. destruct (Nat.eq_dec q' p) as [->|]; [|auto]. right. intros E. apply NE. apply divmod_inj; congruence. }
        rewrite <- E. eapply cellok_same; [exact C|reflexivity|reflexivity|]. unfold taken. fields. intros [X|[X _]]; [auto|contradiction].
    + intros q' i LQ RQ QX. apply upd2_other. destruct (Nat.eq_dec q' p) as [->|]; [|auto]. right. intros E.
      assert (i = head s) by (apply divmod_inj; congruence). congruence.
    + intros i x X. lia.
    + unfold lpok, qok. fields. exists r. auto.
    + cbn [handed flat_map]. rewrite app_nil_r. assert (X := b_hands _ _ B). unfold done in *. fields. rewrite L in X. exact X.
  - (* LPend *)
    destruct LP as (r & Q & SQ & QK).
    assert (INC : rst s r <> RPend -> BI (w_lp s LInc) (t ++ [])).
    { intros R. apply (BI_move s); fields; rewrite ?L; auto 20; try discriminate. unfold lpok. fields. exists r. split; [exact Q|]. split; [lia|auto]. }
    destruct QK as [->|[-> R]]; [|intros [= <- <-]; auto].
    destruct (rst s r) eqn:R; intros [= <- <-]; try (apply INC; discriminate).
    apply (BI_move s); fields; rewrite ?L; auto 20; try discriminate. unfold lpok. fields. auto.
  - (* LSend *)
    destruct LP as (Q & SQ). destruct (full s) eqn:F; intros [= <- <-]; [now apply BI_nil|].
    apply (BI_lp s t); fields; rewrite ?L; auto 20; try (apply B); try discriminate.
    + intros q i x _ _ _ C. eapply cellok_same; [exact C|reflexivity|reflexivity|]. unfold taken. fields. rewrite L. auto.
    + intros i x X. lia.
    + unfold lpok. fields. exists r. split; [exact Q|]. split; [lia|]. left. cbn [handed flat_map app]. apply in_or_app. right. now left.
    + cbn [handed flat_map app]. unfold done. fields. rewrite (firstn_S _ _ _ Q). apply subseq_snoc.
      assert (X := b_hands _ _ B). unfold done in X. rewrite L in X. exact X.
  - (* LInc *)
    destruct LP as (r & Q & SQ & SV). assert (HT : head s < tail s) by (rewrite (b_tail _ _ B); apply nth_error_Some; congruence).
    intros [= <- <-]. apply (BI_lp s t); fields; rewrite ?L; auto 20; try (apply B); try discriminate.
    + intros p PL LE. apply (b_live _ _ B); [exact PL|]. etransitivity; [|exact LE]. apply Nat.div_le_mono; [apply bufRow_pos|lia].
    + intros q i x _ _ _ C. eapply cellok_same; [exact C|reflexivity|reflexivity|]. unfold taken. fields. rewrite L. lia.
    + intros i x X QX. assert (i = head s) by lia. subst i. assert (x = r) by congruence. subst x. split; [lia|].
      cbn [handed flat_map app]. rewrite app_nil_r. exact SV.
    + unfold lpok. fields. exact Logic.I.
    + cbn [handed flat_map]. rewrite app_nil_r. assert (X := b_hands _ _ B). unfold done in *. fields. rewrite L in X. exact X.
  - intros [= <- <-]. now apply BI_nil.
Qed.
Lemma chain_cell s t r p j c : BI s t -> rst s r = RDone -> chained s r = Some (p, j) -> cst c = cst (cells s p j) \/ cst c = CFree ->
  creq c = creq (cells s p j) \/ creq c = None -> BI (w_cells s (upd2 (cells s) p j c)) t.
Proof.
  intros B R C K1 K2. destruct (b_chained _ _ B r p j C) as (PL & ST & NM & (i & Q & PR & ->)).
  assert (C0 := b_cell _ _ B p i PL PR). rewrite Q in C0.
  eapply (BI_in s t _ r i (pcs s r)); fields; [exact B|exact Q|lia|tauto|reflexivity|reflexivity|lia|now right| | | | | | | |]; auto.
  - intros j E.
    eapply nth_error_inj; [exact (b_nd _ _ B)|exact (b_idx _ _ B r j E)|exact Q].
  - intros q E. destruct (pcs s r) eqn:P; try discriminate; cbn [stg] in ST; try lia. injection E as ->.
    assert (X := b_idx _ _ B r i0). rewrite P in X. specialize (X eq_refl).
    assert (i0 = i) by (eapply nth_error_inj; [exact (b_nd _ _ B)|exact X|exact Q]). subst i0.
    apply (b_pptr _ _ B r i q); now rewrite P.
  - intros _. exists p. auto.
  - intros q k L. destruct (Nat.eq_dec q p) as [->|NE]; [|right; apply upd2_other; auto].
    destruct (Nat.eq_dec k (i mod bufRow)) as [->|NE]; [left; auto|right; apply upd2_other; auto].
  - intros q k L. apply upd2_other. lia.
  - intros q L E. assert (q = p) by (apply (b_inj _ _ B); congruence). subst q. rewrite upd2_same. unfold cellok in *. fields.
    destruct C0 as [C0 C1]. split; [destruct K2 as [K2|K2]; rewrite K2; auto|].
    destruct (pcs s r) eqn:P; cbn [stg] in ST; try lia.
    + destruct c0; [|destruct (NM i0 p0 eq_refl)]. destruct C1 as [C1 C2]. split; [|auto].
      destruct K1 as [K1|K1]; rewrite K1; auto.
    + destruct C1 as [C1 C2]. split; [destruct K1 as [K1|K1]; rewrite K1; [auto|discriminate]|]. congruence.
    + destruct C1 as [C1 C2]. split; [destruct K1 as [K1|K1]; rewrite K1; [auto|discriminate]|]. congruence.
  - left. split; [reflexivity|]. intros j q E. destruct (NM _ _ E).
Qed.
Lemma BI_step s t e o s' : BI s t -> step s e = (o, Some s') -> BI s' (t ++ o).
Proof.
  intros B. destruct e; cbn [step]; unfold ok.
  - destruct (pcs s r) eqn:P; try (intros [= <- <-]; now apply BI_nil).
    destruct (rst s r) eqn:R; try (intros [= <- <-]; now apply BI_nil); intros [= <- <-];
    (eapply (BI_out s t _ _ r); [exact B|unfold same_heap; fields; tauto|now rewrite P|fields; apply upd_same|intros; fields; now apply upd_other|intros; fields; try reflexivity; now apply upd_other| | |reflexivity|reflexivity]);
    fields; cbn; auto. left. repeat split; discriminate.
  - destruct (cp s) eqn:C; intros [= <- <-].
    + apply BI_nil. destruct B. split; fields; auto. discriminate.
    + apply (BI_trace _ t); try (now rewrite ?(proj1 (tr_app _ _)), ?(proj1 (proj2 (tr_app _ _))), ?(proj1 (proj2 (proj2 (tr_app _ _)))), ?(proj2 (proj2 (proj2 (tr_app _ _)))), app_nil_r).
      destruct B. split; fields; auto.
  - destruct (rst s r) eqn:R; intros [= <- <-]; apply BI_nil; auto. apply BI_rst; auto.
  - intros [= <- <-]. apply BI_nil, BI_rst; auto.
  - destruct (rst s r) eqn:R; try (intros [= <- <-]; now apply BI_nil).
    destruct (chained s r) as [[p j]|] eqn:C; intros [= <- <-]; apply BI_nil; [|exact B].
    eapply chain_cell; eauto.
  - destruct (rst s r) eqn:R; try (intros [= <- <-]; now apply BI_nil).
    destruct (chained s r) as [[p j]|] eqn:C; intros [= <- <-]; apply BI_nil; [|exact B].
    eapply chain_cell; eauto.
  - destruct (ch s); intros [= <- <-]; [now apply BI_nil|].
    apply (BI_trace _ t); try (now rewrite ?(proj1 (tr_app _ _)), ?(proj1 (proj2 (tr_app _ _))), ?(proj1 (proj2 (proj2 (tr_app _ _)))), ?(proj2 (proj2 (proj2 (tr_app _ _)))), app_nil_r).
    destruct B. split; fields; auto.
  - now apply push_BI.
  - now apply loop_BI.
Qed.
