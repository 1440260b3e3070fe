(** Proofs for HeapsModel: a heap does not care about the Timers of other heaps; invariants. *)
From Coq Require Import ZArith List Bool Arith Lia Permutation.
Import ListNotations.
From Verif Require Import TimerModel TimerSpec TimerProofs TimerInv TimerProps HeapsModel HeapsSpec.
Open Scope nat_scope.

(** *** operations on a heap do not look at the fields i, but for Stop *)
Section Ti.
Variable f : nat -> nat.
Definition lift (m : option heap) : option heap := do h <- m; Some (set_ti h f).
Lemma get_ti h i : get (set_ti h f) i = get h i.
Proof. reflexivity. Qed.
Lemma put_ti h i v : put (set_ti h f) i v = lift (put h i v).
Proof. unfold put. cbn [hlen set_ti]. destruct (Nat.ltb i (hlen h)); reflexivity. Qed.
Lemma sort4_ti pu h a : (forall h u d, pu (set_ti h f) u d = lift (pu h u d)) -> sort4 pu (set_ti h f) a = lift (sort4 pu h a).
Proof.
  intros P. unfold sort4. rewrite !get_ti. destruct (get h a); [|reflexivity]. cbn [bind]. rewrite !get_ti.
  do 4 (match goal with |- context [bind (get h ?i)] => destruct (get h i); [|reflexivity] end; cbn [bind]; rewrite ?get_ti).
  rewrite put_ti. destruct (put h a _) as [h1|]; [|reflexivity]. cbn [bind lift].
  rewrite P. destruct (pu h1 _ _) as [h2|]; [|reflexivity]. cbn [bind lift].
  rewrite P. destruct (pu h2 _ _) as [h3|]; [|reflexivity]. cbn [bind lift].
  rewrite P. reflexivity.
Qed.
Ltac go1 := match goal with
  | |- context [bind (get (set_ti ?h f) ?i)] => rewrite (get_ti h i)
  | |- context [bind (put (set_ti ?h f) ?i ?v)] => rewrite (put_ti h i v)
  | |- context [bind (get ?h ?i)] => destruct (get h i); [|reflexivity]
  | |- context [put ?h ?i ?v] => destruct (put h i v); [|reflexivity]
  | |- context [put (set_ti ?h f) ?i ?v] => rewrite (put_ti h i v)
  end; cbn [bind lift].
Lemma put_under_ti fuel : forall h u d, put_under fuel (set_ti h f) u d = lift (put_under fuel h u d).
Proof.
  induction fuel as [|fuel IH]; intros h u d; [reflexivity|]. cbn [put_under].
  repeat go1. match goal with |- context [Nat.eqb ?a 4] => destruct (Nat.eqb a 4) end.
  - rewrite sort4_ti by exact IH. match goal with |- context [sort4 ?a ?b ?c] => destruct (sort4 a b c); [|reflexivity] end. cbn [bind lift]. repeat go1. reflexivity.
  - match goal with |- context [check ?a] => destruct (check a); [|reflexivity] end. cbn [bind]. repeat go1. reflexivity.
Qed.
Lemma put_under'_ti h u d : put_under' (set_ti h f) u d = lift (put_under' h u d).
Proof. apply put_under_ti. Qed.

Lemma dec_upi_ti h j : dec_upi (set_ti h f) j = lift (dec_upi h j).
Proof. unfold dec_upi. repeat go1. reflexivity. Qed.
Lemma dn_get_ti h i k : dn_get (set_ti h f) i k = dn_get h i k.
Proof. reflexivity. Qed.
Lemma dn_set_ti h i k v : dn_set (set_ti h f) i k v = lift (dn_set h i k v).
Proof. unfold dn_set. repeat go1. destruct (check _); [|reflexivity]. cbn [bind]. repeat go1. reflexivity. Qed.
Lemma shift1_ti h u k : shift1 (set_ti h f) u k = lift (shift1 h u k).
Proof.
  unfold shift1. rewrite dn_get_ti. destruct (dn_get h u (S k)); [|reflexivity]. cbn [bind]. rewrite dn_set_ti.
  destruct (dn_set h u k n) as [h1|]; [|reflexivity]. cbn [bind lift]. rewrite dn_get_ti.
  destruct (dn_get h1 u (S k)); [|reflexivity]. cbn [bind]. apply dec_upi_ti.
Qed.
Lemma shift_children_ti h u p : shift_children (set_ti h f) u p = lift (shift_children h u p).
Proof.
  unfold shift_children. destruct (p =? 0)%Z; [|destruct (p =? 1)%Z; [|destruct (p =? 2)%Z; [|destruct (p =? 3)%Z]]].
  - rewrite shift1_ti. destruct (shift1 h u 0) as [h1|]; [|reflexivity]. cbn [bind lift].
    rewrite shift1_ti. destruct (shift1 h1 u 1) as [h2|]; [|reflexivity]. cbn [bind lift].
    rewrite shift1_ti. destruct (shift1 h2 u 2) as [h3|]; [|reflexivity]. cbn [bind lift]. apply dn_set_ti.
  - rewrite shift1_ti. destruct (shift1 h u 1) as [h1|]; [|reflexivity]. cbn [bind lift].
    rewrite shift1_ti. destruct (shift1 h1 u 2) as [h2|]; [|reflexivity]. cbn [bind lift]. apply dn_set_ti.
  - rewrite shift1_ti. destruct (shift1 h u 2) as [h1|]; [|reflexivity]. cbn [bind lift]. apply dn_set_ti.
  - apply dn_set_ti.
  - reflexivity.
Qed.
Lemma relink_ti h a d : relink (set_ti h f) a d = lift (relink h a d).
Proof.
  unfold relink. cbn [top set_ti]. destruct (Nat.eqb a (top h)).
  - change (mkH (cells (set_ti h f)) (hlen (set_ti h f)) (size (set_ti h f)) d (free (set_ti h f)) (TimerModel.ti (set_ti h f)))
      with (set_ti (mkH (cells h) (hlen h) (size h) d (free h) (TimerModel.ti h)) f).
    repeat go1. reflexivity.
  - repeat go1. destruct (check _); [|reflexivity]. cbn [bind]. apply dn_set_ti.
Qed.
Lemma merge_ti h a : merge (set_ti h f) a = do r <- merge h a; Some (set_ti (fst r) f, snd r).
Proof.
  unfold merge. rewrite get_ti. destruct (get h a) as [t|]; [|reflexivity]. cbn [bind].
  destruct (idl t) as [|[|[|[|[|n]]]]]; try reflexivity.
  - rewrite !get_ti. do 2 (match goal with |- context [bind (get h ?i)] => destruct (get h i); [|reflexivity] end; cbn [bind]; rewrite ?get_ti).
    destruct (ie _ <=? ie _)%Z; rewrite put_under'_ti; destruct (put_under' _ _ _); reflexivity.
  - rewrite !get_ti. do 3 (match goal with |- context [bind (get h ?i)] => destruct (get h i); [|reflexivity] end; cbn [bind]; rewrite ?get_ti).
    rewrite put_ti. match goal with |- context [put h a ?v] => destruct (put h a v) as [h1|]; [|reflexivity] end. cbn [bind lift].
    rewrite put_under'_ti. match goal with |- context [put_under' h1 ?i ?v] => destruct (put_under' h1 i v) as [h2|]; [|reflexivity] end. cbn [bind lift].
    rewrite put_under'_ti. match goal with |- context [put_under' h2 ?i ?v] => destruct (put_under' h2 i v) as [h3|]; [|reflexivity] end. reflexivity.
  - rewrite sort4_ti by (intros; apply put_under'_ti). destruct (sort4 put_under' h a) as [h1|]; [|reflexivity]. cbn [bind lift].
    rewrite get_ti. destruct (get h1 a); reflexivity.
Qed.
Lemma detach_ti h a : detach (set_ti h f) a = lift (detach h a).
Proof.
  unfold detach. rewrite get_ti. destruct (get h a) as [t|]; [|reflexivity]. cbn [bind]. destruct (Nat.eqb (idl t) 0).
  - cbn [top set_ti]. destruct (Nat.eqb a (top h)); [reflexivity|].
    fold (set_ti h f). rewrite shift_children_ti. destruct (shift_children h _ _) as [h1|]; [|reflexivity]. cbn [bind lift]. repeat go1. reflexivity.
  - rewrite merge_ti. destruct (merge h a) as [[h1 d]|]; [|reflexivity]. cbn [bind fst snd]. apply relink_ti.
Qed.
End Ti.

Lemma remove_ti f h a : remove (set_ti h f) a = do t <- get h a; do x <- ix t; do h' <- remove h a; Some (set_ti h' (fupd f x 0)).
Proof.
  unfold remove. rewrite get_ti. destruct (get h a) as [t|] eqn:G; [|reflexivity]. cbn [bind]. destruct (ix t) as [x|]; [|reflexivity]. cbn [bind].
  set (h0 := mkH (cells h) (hlen h) (size h - 1) (top h) (free h) (fupd (TimerModel.ti h) x 0)).
  change (mkH (cells (set_ti h f)) _ _ _ _ _) with (set_ti h0 (fupd f x 0)).
  rewrite detach_ti. destruct (detach h0 a) as [h1|]; [|reflexivity]. cbn [bind lift].
  rewrite put_ti. cbn [free set_ti]. destruct (put h1 a _) as [h2|]; reflexivity.
Qed.
Definition slot (h : heap) : nat := if free h =? 0 then hlen h else free h.
Definition push_tail (h : heap) (i : nat) : option (heap * bool) :=
  if Nat.eqb (top h) 0 then
    Some (mkH (cells h) (hlen h) (size h) i (free h) (TimerModel.ti h), true)
  else
    do it <- get h i;
    do tp <- get h (top h);
    if (ie it <=? ie tp)%Z then
      do h <- put_under' h i (top h);
      do it <- get h i;
      do tp <- get h (top h);
      Some (mkH (cells h) (hlen h) (size h) i (free h) (TimerModel.ti h), (ie it <? ie tp)%Z)
    else
      do h <- put_under' h (top h) i;
      Some (h, false).
Lemma push_tail_ti f h i : push_tail (set_ti h f) i = do r <- push_tail h i; Some (set_ti (fst r) f, snd r).
Proof.
  unfold push_tail. change (top (set_ti h f)) with (top h). destruct (top h =? 0); [reflexivity|].
  rewrite ?get_ti. destruct (get h i); [|reflexivity]. cbn [bind]. rewrite ?get_ti. destruct (get h (top h)); [|reflexivity]. cbn [bind].
  destruct (ie _ <=? ie _)%Z; rewrite put_under'_ti.
  - destruct (put_under' h i (top h)) as [h1|]; [|reflexivity]. cbn [bind lift]. rewrite ?get_ti.
    destruct (get h1 i); [|reflexivity]. cbn [bind]. rewrite ?get_ti. change (top (set_ti h1 f)) with (top h1). destruct (get h1 (top h1)); reflexivity.
  - destruct (put_under' h (top h) i) as [h1|]; reflexivity.
Qed.
Lemma push_eq h x e : push h x e =
  do c <- (if free h =? 0 then Some 0 else do it <- get h (free h); Some (iup it));
  push_tail (mkH (fupd (cells h) (slot h) (fresh x e)) (if free h =? 0 then S (hlen h) else hlen h) (size h + 1) (top h)
    c (fupd (TimerModel.ti h) x (slot h))) (slot h).
Proof.
  unfold push, slot. destruct (Nat.eqb_spec (free h) 0) as [F|F].
  - cbn [bind free hlen cells size top TimerModel.ti]. rewrite fupd_eq, F. reflexivity.
  - destruct (get h (free h)) as [it|]; [|reflexivity]. cbn [bind free hlen cells size top TimerModel.ti]. rewrite fupd_eq. reflexivity.
Qed.
Lemma push_ti f h x e : push (set_ti h f) x e = do r <- push h x e; Some (set_ti (fst r) (fupd f x (slot h)), snd r).
Proof.
  rewrite !push_eq. change (free (set_ti h f)) with (free h). change (slot (set_ti h f)) with (slot h).
  change (hlen (set_ti h f)) with (hlen h). rewrite get_ti.
  destruct (if free h =? 0 then Some 0 else do it <- get h (free h); Some (iup it)) as [c|]; [|reflexivity]. cbn [bind].
  set (h0 := mkH _ _ _ _ c (fupd (TimerModel.ti h) x (slot h))).
  change (mkH _ _ _ _ c (fupd _ x (slot h))) with (set_ti h0 (fupd f x (slot h))).
  apply push_tail_ti.
Qed.

Lemma set_ti_self h : set_ti h (TimerModel.ti h) = h.
Proof. destruct h; reflexivity. Qed.
Lemma push_self h x e h' b : push h x e = Some (h', b) -> TimerModel.ti h' = fupd (TimerModel.ti h) x (slot h).
Proof.
  intros E. pose proof (push_ti (TimerModel.ti h) h x e) as P. rewrite set_ti_self, E in P. cbn [bind fst snd] in P.
  injection P as P. rewrite P at 1. reflexivity.
Qed.
Lemma remove_self h a h' : remove h a = Some h' -> exists t x, get h a = Some t /\ ix t = Some x /\ TimerModel.ti h' = fupd (TimerModel.ti h) x 0.
Proof.
  intros E. pose proof (remove_ti (TimerModel.ti h) h a) as P. rewrite set_ti_self, E in P.
  destruct (get h a) as [t|] eqn:G; [|discriminate]. cbn [bind] in P. destruct (ix t) as [x|] eqn:X; [|discriminate]. cbn [bind] in P.
  injection P as P. exists t, x. split; auto. split; auto. rewrite P at 1. reflexivity.
Qed.

(** one critical section on a heap whose own history is [ops], seen through other fields i *)
Definition same (h : heap) (tr : list tev) (f : nat -> nat) (c : top_) (h' : heap) (f' : nat -> nat) (v : tev) : Prop :=
  match c with
  | Arm x e => v = Armed x e /\ exists i, f' = fupd f x i /\ TimerModel.ti h' = fupd (TimerModel.ti h) x i
  | Stop x => v = Stopped x /\ (f' = f /\ TimerModel.ti h' = TimerModel.ti h \/ f' = fupd f x 0 /\ TimerModel.ti h' = fupd (TimerModel.ti h) x 0)
  | Pop now => v = Asleep now /\ f' = f /\ h' = h \/
      exists x e, v = Fired x e now /\ f' = fupd f x 0 /\ TimerModel.ti h' = fupd (TimerModel.ti h) x 0 /\ In (Armed x e) tr
  end.
Lemma count_in x e tr : (0 < count (is_armed x e) tr)%nat -> In (Armed x e) tr.
Proof.
  unfold count. intros L. destruct (filter (is_armed x e) tr) as [|a l] eqn:F; [simpl in L; lia|].
  assert (J : In a (filter (is_armed x e) tr)) by (rewrite F; left; auto). apply filter_In in J. destruct J as [J A].
  destruct a as [y g| | |]; try discriminate. cbn [is_armed] in A. apply andb_prop in A. destruct A as [A B].
  apply Nat.eqb_eq in A. apply Z.eqb_eq in B. subst. exact J.
Qed.
Lemma hstep_ti ops h tr f c : hrun hinit ops = Some (h, tr) -> (forall x, c = Stop x -> f x = TimerModel.ti h x) ->
  exists h' f' v, hstep h c = Some (h', v) /\ hstep (set_ti h f) c = Some (set_ti h' f', v) /\ same h tr f c h' f' v.
Proof.
  intros E F. destruct (hrun_inv0 _ _ _ E) as (T & fl & I). destruct (hstep_ok h T fl c I) as (h' & T' & fl' & v & S & I' & Q).
  destruct c as [x e|x|now].
  - destruct Q as (i & -> & _ & Ti & _). cbn [hstep] in S |- *. rewrite push_ti. destruct (push h x e) as [[h1 b]|] eqn:P; [|discriminate].
    cbn [bind fst snd] in S |- *. injection S as ->. exists h', (fupd f x (slot h)), (Armed x e). split; auto. split; auto.
    split; auto. exists (slot h). split; auto. eapply push_self; eauto.
  - destruct Q as (-> & Q). specialize (F x eq_refl). cbn [hstep] in S |- *. change (TimerModel.ti (set_ti h f) x) with (f x). rewrite F.
    destruct (Nat.eqb_spec (TimerModel.ti h x) 0) as [Z|Z].
    + injection S as <-. exists h, f, (Stopped x). split; auto. split; auto. split; auto.
    + destruct Q as (e & P & Ti). destruct (remove h (TimerModel.ti h x)) as [h1|] eqn:R; [|discriminate]. cbn [bind] in S. injection S as ->.
      rewrite remove_ti, R. destruct (remove_self _ _ _ R) as (t & y & G & X & Ty). rewrite G. cbn [bind]. rewrite X. cbn [bind].
      assert (y = x) as ->.
      { assert (J : In (TimerModel.ti h x, x, e) (oents T)) by (eapply Permutation_in; [apply Permutation_sym; exact P|left; auto]).
        destruct T as [tr0|]; [|destruct J]. destruct (inv_top _ _ _ I) as (_ & R0 & _).
        destruct (rep_cell _ _ _ _ _ R0 J) as [X0 _]. unfold get in G. destruct (_ <? _); [|discriminate]. injection G as <-. congruence. }
      exists h', (fupd f x 0), (Stopped x). split; auto. split; auto. split; auto.
  - assert (Sm : forall x e n, v = Fired x e n -> In (Armed x e) tr).
    { intros x e n ->. pose proof (C36_at_most_one_expiry_per_After (ops ++ [Pop now]) h' (tr ++ [Fired x e n]) x e) as C.
      rewrite !count_app in C. apply count_in.
      assert (A : hrun hinit (ops ++ [Pop now]) = Some (h', tr ++ [Fired x e n])).
      { apply hrun_app. exists h, tr, [Fired x e n]. split; auto. split; auto. cbn [hrun]. rewrite S. reflexivity. }
      specialize (C A). rewrite !count_cons, !count_nil in C. cbn [is_fired is_armed] in C. rewrite Nat.eqb_refl, Z.eqb_refl in C. cbn [andb] in C. lia. }
    cbn [hstep] in S |- *. change (size (set_ti h f)) with (size h). change (top (set_ti h f)) with (top h).
    destruct (size h =? 0)%Z.
    + injection S as <- <-. exists h, f, (Asleep now). split; auto. split; auto. left. auto.
    + rewrite get_ti. destruct (get h (top h)) as [t|] eqn:G; [|discriminate]. cbn [bind] in S |- *. destruct (now <=? ie t)%Z.
      * injection S as <- <-. exists h, f, (Asleep now). split; auto. split; auto. left. auto.
      * rewrite remove_ti, G. cbn [bind]. destruct (remove h (top h)) as [h1|] eqn:R; [|discriminate]. cbn [bind] in S |- *.
        destruct (remove_self _ _ _ R) as (t' & y & G' & X & Ty). rewrite G in G'. injection G' as <-. rewrite X in S |- *. cbn [bind] in S |- *. injection S as -> <-.
        exists h', (fupd f y 0), (Fired y (ie t) now). split; auto. split; auto. right. exists y, (ie t). eauto.
Qed.

(** *** the invariant *)
Definition aft (p : pc) : option nat :=
  match p with
  | ALoad x _ | NAdd x _ | NMod x _ _ | NLock x _ _ | NProcs x _ _ | NGrow x _ _ _ | NApp x _ _ _ _ | NSet x _ _ _
  | NUnlock x _ _ | NPick x _ _ | NIdx x _ _ | NSl x _ _ _ | ASet x _ _ | AGet x _ | APush x _ _ => Some x
  | _ => None
  end.
Definition locked (p : pc) : bool :=
  match p with NProcs _ _ _ | NGrow _ _ _ _ | NApp _ _ _ _ _ | NSet _ _ _ _ | NUnlock _ _ _ => true | _ => false end.
Definition pc_ok (s : st) (p : pc) : Prop :=
  match p with
  | Idle | ALoad _ _ | SLoad _ => True
  | NAdd x _ | NMod x _ _ | NLock x _ _ | NProcs x _ _ | NUnlock x _ _ | NPick x _ _ => th s x = 0
  | NGrow x _ _ n => th s x = 0 /\ 1 <= n
  | NApp x _ _ n sl => th s x = 0 /\ 1 <= n /\ sl = heaps s
  | NSet x _ _ n => th s x = 0 /\ 1 <= n <= nobj s
  | NIdx x _ j => th s x = 0 /\ j < nobj s
  | NSl _ _ _ _ | Dead => False
  | ASet x _ o => th s x = 0 /\ o < nobj s
  | AGet x _ => th s x <> 0
  | APush x _ o | SRem x o => th s x = S o /\ o < nobj s
  | SGet x h => h <> 0 /\ th s x = h
  end.
Record HI (tr : list obs) (s : st) : Prop := mkHI {
  hi_heaps : heaps s = seq 0 (nobj s);
  hi_obj : forall o, o < nobj s -> objI s o = S o;
  hi_N : 1 <= heapN s <= nobj s;
  hi_th : forall x, th s x <= nobj s;
  hi_pc : forall k, pc_ok s (pcs s k);
  hi_lock : forall k, locked (pcs s k) = true -> heapM s = Some k;
  hi_busy : forall k x, aft (pcs s k) = Some x -> busy tr x = true;
  hi_uniq : forall k1 k2 x, aft (pcs s k1) = Some x -> aft (pcs s k2) = Some x -> k1 = k2;
  hi_heap : forall o, o < nobj s -> exists ops h, hrun hinit ops = Some (h, at_heap o tr) /\ hp s o = body h /\
              forall x, TimerModel.ti h x = if th s x =? S o then ti s x else 0;
  hi_ti : forall x, th s x = 0 -> ti s x = 0;
  hi_on : forall o v, In (OOn o v) tr -> o < nobj s /\ forall x, about v = Some x -> th s x = S o;
  hi_arm : forall x o, armed (at_heap o tr) x = if th s x =? S o then armed (timeline tr) x else None;
  hi_arm0 : forall x, th s x = 0 -> armed (timeline tr) x = None;
  hi_ok : (forall k, ~ In (OPanic k) tr) /\ forall o, ~ In (OCrash o) tr }.

Lemma hi_start : HI [] start.
Proof.
  constructor; cbn [start heaps objI nobj hp ti th heapI heapN heapM pcs]; auto; try lia; try discriminate.
  - intros k. exact Logic.I.
  - intros o _. exists [], hinit. split; [reflexivity|]. split; [reflexivity|]. intros x. reflexivity.
  - intros o v [].
Qed.

Lemma busy_snoc tr o x : busy (tr ++ [o]) x = upd_busy x (busy tr x) o.
Proof. unfold busy. rewrite fold_left_app. reflexivity. Qed.
Lemma at_heap_app o a b : at_heap o (a ++ b) = at_heap o a ++ at_heap o b.
Proof. apply flat_map_app. Qed.
Lemma timeline_app a b : timeline (a ++ b) = timeline a ++ timeline b.
Proof. apply flat_map_app. Qed.

(** a step of a goroutine's program counter only *)
Lemma hi_setpc tr s k p : HI tr s -> pc_ok s p -> (aft p = None \/ aft p = aft (pcs s k)) ->
  (locked p = true -> heapM s = Some k) -> HI tr (set_pc s k p).
Proof.
  intros H P A L. destruct H. constructor; cbn [set_pc heaps objI nobj hp ti th heapI heapN heapM pcs]; auto.
  - intros j. destruct (Nat.eq_dec j k) as [->|N]; [rewrite fupd_eq; exact P|rewrite fupd_ne by auto; apply hi_pc0].
  - intros j. destruct (Nat.eq_dec j k) as [->|N]; [rewrite fupd_eq; exact L|rewrite fupd_ne by auto; apply hi_lock0].
  - intros j x. destruct (Nat.eq_dec j k) as [->|N]; [rewrite fupd_eq|rewrite fupd_ne by auto; apply hi_busy0].
    intros Q. destruct A as [A|A]; [congruence|]. apply (hi_busy0 k). congruence.
  - assert (G : forall j x, aft (fupd (pcs s) k p j) = Some x -> aft (pcs s j) = Some x).
    { intros j x. destruct (Nat.eq_dec j k) as [->|N]; [rewrite fupd_eq|rewrite fupd_ne by auto; auto].
      intros Q. destruct A as [A|A]; congruence. }
    intros a b x Qa Qb. eapply hi_uniq0; eauto.
Qed.
Lemma hi_setctr tr s i : HI tr s -> HI tr (set_ctr s i).
Proof. intros []. constructor; auto. Qed.
(** the lock *)
Lemma hi_setlock tr s m : HI tr s -> (forall k, locked (pcs s k) = true -> m = Some k) -> HI tr (set_lock s m).
Proof. intros [] L. constructor; auto. Qed.
Lemma hi_setn tr s n : HI tr s -> 1 <= n <= nobj s -> HI tr (set_n s n).
Proof. intros [] L. constructor; auto. Qed.

Lemma at_heap_none tr s o : HI tr s -> nobj s <= o -> at_heap o tr = [].
Proof.
  intros H L. destruct (at_heap o tr) as [|v l] eqn:Q; auto.
  assert (J : In v (at_heap o tr)) by (rewrite Q; left; auto). unfold at_heap in J. apply in_flat_map in J.
  destruct J as (b & J & K). destruct b as [| |p w| | |]; try destruct K. destruct (Nat.eqb_spec p o) as [->|]; [|destruct K].
  destruct (hi_on _ _ H _ _ J). lia.
Qed.
Lemma hi_grow tr s k x e i n : HI tr s -> pcs s k = NApp x e i n (heaps s) ->
  HI tr (set_pc (grow s (heaps s)) k (NGrow x e i n)).
Proof.
  intros H E. pose proof (at_heap_none tr s (nobj s) H (le_n _)) as AN. destruct H.
  pose proof (hi_pc0 k) as Pk. rewrite E in Pk. cbn in Pk. destruct Pk as (P1 & P2 & _).
  assert (Lk : heapM s = Some k) by (apply hi_lock0; rewrite E; reflexivity).
  assert (Len : length (heaps s) = nobj s) by (rewrite hi_heaps0; apply seq_length).
  constructor; cbn [set_pc grow heaps objI nobj hp ti th heapI heapN heapM pcs]; auto.
  - rewrite seq_S. cbn [plus]. f_equal. exact hi_heaps0.
  - intros o L. destruct (Nat.eq_dec o (nobj s)) as [->|N]; [rewrite fupd_eq; congruence|rewrite fupd_ne by auto; apply hi_obj0; lia].
  - lia.
  - intros j. destruct (Nat.eq_dec j k) as [->|N]; [rewrite fupd_eq; cbn; auto|rewrite fupd_ne by auto].
    specialize (hi_pc0 j). pose proof (hi_lock0 j) as Lj.
    destruct (pcs s j) eqn:Ej; cbn [pc_ok set_pc grow heaps nobj th] in *; try solve [intuition lia].
    exfalso. specialize (Lj eq_refl). congruence.
  - intros j. destruct (Nat.eq_dec j k) as [->|N]; [auto|rewrite fupd_ne by auto; apply hi_lock0].
  - intros j y. destruct (Nat.eq_dec j k) as [->|N]; [rewrite fupd_eq; cbn; intros Q; apply (hi_busy0 k); rewrite E; exact Q|rewrite fupd_ne by auto; apply hi_busy0].
  - assert (G : forall j y, aft (fupd (pcs s) k (NGrow x e i n) j) = Some y -> aft (pcs s j) = Some y).
    { intros j y. destruct (Nat.eq_dec j k) as [->|N]; [rewrite fupd_eq, E; auto|rewrite fupd_ne by auto; auto]. }
    intros a b y Qa Qb. eapply hi_uniq0; eauto.
  - intros o L. destruct (Nat.eq_dec o (nobj s)) as [->|N].
    + rewrite fupd_eq, AN. exists [], hinit. split; [reflexivity|]. split; [reflexivity|]. intros y. cbn.
      destruct (th s y =? S (nobj s)) eqn:Q; auto. apply Nat.eqb_eq in Q. specialize (hi_th0 y). lia.
    + rewrite fupd_ne by auto. apply hi_heap0. lia.
  - intros o v J. destruct (hi_on0 o v J) as [A B]. split; [lia|auto].
Qed.

(** After stores the number of its heap *)
Lemma hi_setth tr s k x e o : HI tr s -> pcs s k = ASet x e o -> HI tr (set_pc (set_th s x (objI s o)) k (APush x e o)).
Proof.
  intros H E. destruct H. pose proof (hi_pc0 k) as Pk. rewrite E in Pk. cbn in Pk. destruct Pk as (P1 & P2).
  rewrite (hi_obj0 o P2).
  assert (Tz : forall p, 0 =? S p = false) by reflexivity.
  assert (NoX : forall p v, In (OOn p v) tr -> about v <> Some x).
  { intros p v J A. destruct (hi_on0 p v J) as [_ B]. specialize (B x A). congruence. }
  constructor; cbn [set_pc set_th heaps objI nobj hp ti th heapI heapN heapM pcs]; auto.
  - intros y. destruct (Nat.eq_dec y x) as [->|N]; [rewrite fupd_eq; lia|rewrite fupd_ne by auto; auto].
  - intros j. destruct (Nat.eq_dec j k) as [->|N]; [rewrite fupd_eq; cbn; rewrite fupd_eq; auto|rewrite (fupd_ne (pcs s)) by auto].
    pose proof (hi_pc0 j) as Pj. assert (U : aft (pcs s j) <> Some x).
    { intros Q. apply N. eapply hi_uniq0; [exact Q|]. rewrite E. reflexivity. }
    destruct (pcs s j) as [|y|y|y|y|y|y|y|y|y|y|y|y|y|y|y|y|y|y|] eqn:Ej; cbn [pc_ok set_pc set_th heaps nobj th aft] in *; auto;
      (destruct (Nat.eq_dec y x) as [->|Ny]; [try congruence|rewrite ?fupd_ne by auto; auto]); try lia.
  - intros j. destruct (Nat.eq_dec j k) as [->|N]; [rewrite fupd_eq; discriminate|rewrite fupd_ne by auto; apply hi_lock0].
  - intros j y. destruct (Nat.eq_dec j k) as [->|N]; [rewrite fupd_eq; cbn; intros Q; apply (hi_busy0 k); rewrite E; exact Q|rewrite fupd_ne by auto; apply hi_busy0].
  - assert (G : forall j y, aft (fupd (pcs s) k (APush x e o) j) = Some y -> aft (pcs s j) = Some y).
    { intros j y. destruct (Nat.eq_dec j k) as [->|N]; [rewrite fupd_eq, E; auto|rewrite fupd_ne by auto; auto]. }
    intros a b y Qa Qb. eapply hi_uniq0; eauto.
  - intros p L. destruct (hi_heap0 p L) as (ops & h & R & B & C). exists ops, h. split; auto. split; auto. intros y.
    destruct (Nat.eq_dec y x) as [->|N]; [|rewrite fupd_ne by auto; apply C].
    rewrite fupd_eq, C, P1. cbn [Nat.eqb]. rewrite (hi_ti0 x P1). destruct (o =? p); reflexivity.
  - intros y. destruct (Nat.eq_dec y x) as [->|N]; [rewrite fupd_eq; discriminate|rewrite fupd_ne by auto; auto].
  - intros p v J. destruct (hi_on0 p v J) as [A B]. split; auto. intros y Y. destruct (Nat.eq_dec y x) as [->|N].
    + exfalso. eapply NoX; eauto.
    + rewrite fupd_ne by auto. auto.
  - intros y p. destruct (Nat.eq_dec y x) as [->|N]; [|rewrite fupd_ne by auto; apply hi_arm1].
    rewrite fupd_eq, hi_arm1, P1. cbn [Nat.eqb]. rewrite (hi_arm2 x P1). destruct (o =? p); reflexivity.
  - intros y. destruct (Nat.eq_dec y x) as [->|N]; [rewrite fupd_eq; discriminate|rewrite fupd_ne by auto; auto].
Qed.

(** a critical section on heap [o] *)
Lemma body_ti h f : set_ti (body h) f = set_ti h f.
Proof. reflexivity. Qed.
Lemma hi_crit tr s o c g : HI tr s -> o < nobj s ->
  (forall x, c = Stop x \/ (exists e, c = Arm x e) -> th s x = S o) ->
  (forall j, g j = pcs s j \/ g j = Idle) -> (forall x e j, c = Arm x e -> aft (g j) <> Some x) ->
  exists h v, hstep (set_ti (hp s o) (ti s)) c = Some (h, v) /\
    HI (tr ++ [OOn o v]) (mkSt (heaps s) (objI s) (nobj s) (fupd (hp s) o (body h)) (TimerModel.ti h) (th s) (heapI s) (heapN s) (heapM s) g).
Proof.
  intros H L Own G NA. destruct (hi_heap _ _ H o L) as (ops & h & R & B & C).
  assert (F : forall x, c = Stop x -> ti s x = TimerModel.ti h x).
  { intros x Q. rewrite C, (Own x (or_introl Q)), Nat.eqb_refl. reflexivity. }
  destruct (hstep_ti ops h _ (ti s) c R F) as (h' & f' & v & S1 & S2 & Sm).
  exists (set_ti h' f'), v. rewrite B, body_ti. split; [exact S2|].
  change (body (set_ti h' f')) with (body h'). change (TimerModel.ti (set_ti h' f')) with f'.
  (* whom the event is about, and what it does to the fields i *)
  assert (Ab : forall x, about v = Some x -> th s x = S o).
  { intros x A. destruct c as [y e|y|now]; unfold same in Sm.
    - destruct Sm as (-> & _). injection A as ->. apply Own. eauto.
    - destruct Sm as (-> & _). injection A as ->. apply Own. eauto.
    - destruct Sm as [(-> & _)|(y & e & -> & _ & _ & J)]; [discriminate|]. injection A as ->.
      unfold at_heap in J. apply in_flat_map in J. destruct J as (b & J & K). destruct b as [| |p w| | |]; try destruct K.
      destruct (Nat.eqb_spec p o) as [->|]; [|destruct K]. destruct K as [->|[]].
      destruct (hi_on _ _ H _ _ J) as [_ D]. apply D. reflexivity. }
  assert (Ti : (f' = ti s /\ TimerModel.ti h' = TimerModel.ti h) \/
               exists x i, about v = Some x /\ f' = fupd (ti s) x i /\ TimerModel.ti h' = fupd (TimerModel.ti h) x i).
  { destruct c as [y e|y|now]; unfold same in Sm.
    - destruct Sm as (-> & i & -> & ->). right. exists y, i. auto.
    - destruct Sm as (-> & [(-> & ->)|(-> & ->)]); [left; auto|right; exists y, 0; auto].
    - destruct Sm as [(-> & -> & ->)|(y & e & -> & -> & -> & _)]; [left; auto|right; exists y, 0; auto]. }
  assert (Gp : forall j p, g j = p -> p <> Idle -> pcs s j = p) by (intros j p Q N; destruct (G j); congruence).
  assert (Ga : forall j x, aft (g j) = Some x -> aft (pcs s j) = Some x).
  { intros j x Q. destruct (G j) as [Q'|Q']; rewrite Q' in Q; [auto|discriminate]. }
  assert (Up : forall x st0, about v <> Some x -> upd_armed x st0 v = st0).
  { intros x st0 A. destruct v as [y e|y|y e n|n]; cbn [upd_armed]; auto; (destruct (Nat.eqb_spec y x) as [->|]; [exfalso; apply A; reflexivity|reflexivity]). }
  destruct H. constructor; cbn [heaps objI nobj hp ti th heapI heapN heapM pcs]; auto.
  - intros j. destruct (G j) as [-> | ->]; [|exact Logic.I]. specialize (hi_pc0 j). destruct (pcs s j); exact hi_pc0.
  - intros j. destruct (G j) as [-> | ->]; [apply hi_lock0|discriminate].
  - intros j x A. rewrite busy_snoc, (hi_busy0 j x (Ga _ _ A)). destruct v as [y e| | |]; auto. cbn [upd_busy].
    destruct (Nat.eqb_spec y x) as [->|]; auto. exfalso. destruct c as [z f|z|now]; unfold same in Sm.
    + destruct Sm as (Q & _). injection Q as -> ->. eapply NA; eauto.
    + destruct Sm as (Q & _). discriminate.
    + destruct Sm as [(Q & _)|(z & f & Q & _)]; discriminate.
  - intros a b x Qa Qb. eapply hi_uniq0; eauto.
  - intros p Lp. rewrite at_heap_app. cbn [at_heap flat_map]. destruct (Nat.eqb_spec o p) as [<-|N].
    + rewrite fupd_eq. exists (ops ++ [c]), h'. split; [|split; [reflexivity|]].
      * apply hrun_app. exists h, (at_heap o tr), [v]. split; auto. split; [|reflexivity]. cbn [hrun]. rewrite S1. reflexivity.
      * intros x. destruct Ti as [(-> & ->)|(y & i & Ay & -> & ->)]; [apply C|].
        destruct (Nat.eq_dec x y) as [->|Nx]; [rewrite !fupd_eq, (Ab y Ay), Nat.eqb_refl; reflexivity|rewrite !fupd_ne by auto; apply C].
    + rewrite fupd_ne by auto. cbn [app]. rewrite app_nil_r. destruct (hi_heap0 p Lp) as (ops2 & h2 & R2 & B2 & C2).
      exists ops2, h2. split; auto. split; auto. intros x. rewrite C2.
      destruct Ti as [(-> & _)|(y & i & Ay & -> & _)]; [reflexivity|].
      destruct (Nat.eq_dec x y) as [->|Nx]; [|rewrite fupd_ne by auto; reflexivity]. rewrite (Ab y Ay).
      destruct (Nat.eqb_spec (S o) (S p)); [congruence|reflexivity].
  - intros x Z. destruct Ti as [(-> & _)|(y & i & Ay & -> & _)]; [auto|].
    destruct (Nat.eq_dec x y) as [->|Nx]; [rewrite (Ab y Ay) in Z; discriminate|rewrite fupd_ne by auto; auto].
  - intros p w J. apply in_app_or in J. destruct J as [J|[J|[]]]; [apply hi_on0; auto|]. injection J as -> ->. split; auto.
  - intros x p. rewrite at_heap_app, timeline_app. cbn [at_heap timeline flat_map app]. rewrite armed_snoc.
    destruct (Nat.eqb_spec o p) as [<-|N].
    + cbn [app]. rewrite armed_snoc, hi_arm1.
      destruct (Nat.eqb_spec (th s x) (S o)) as [T|T]; [reflexivity|]. rewrite Up; auto.
    + cbn [app]. rewrite app_nil_r, hi_arm1. destruct (Nat.eqb_spec (th s x) (S p)) as [T|T]; auto.
      rewrite Up; auto. intros A. apply Ab in A. congruence.
  - intros x Z. rewrite timeline_app. cbn [timeline flat_map app]. rewrite armed_snoc, (hi_arm2 x Z). apply Up.
    intros A. apply Ab in A. congruence.
  - destruct hi_ok0 as [A B0]. split; intros j J; apply in_app_or in J; destruct J as [J|[J|[]]]; try discriminate; [eapply A|eapply B0]; eauto.
Qed.

Lemma hi_quiet tr s b : HI tr s -> (match b with OStop _ _ => True | _ => False end) -> HI (tr ++ [b]) s.
Proof.
  intros H B. destruct b as [|k x| | | |]; try destruct B. destruct H.
  assert (A : forall o, at_heap o (tr ++ [OStop k x]) = at_heap o tr) by (intros o; rewrite at_heap_app; apply app_nil_r).
  assert (T : timeline (tr ++ [OStop k x]) = timeline tr) by (rewrite timeline_app; apply app_nil_r).
  constructor; auto; try rewrite T; auto.
  - intros j y Q. rewrite busy_snoc. cbn. eauto.
  - intros o L. rewrite A. auto.
  - intros o v J. apply in_app_or in J. destruct J as [J|[J|[]]]; [auto|discriminate].
  - intros y o. rewrite A. auto.
  - destruct hi_ok0 as [P Q]. split; intros j J; apply in_app_or in J; destruct J as [J|[J|[]]]; try discriminate; [eapply P|eapply Q]; eauto.
Qed.
Lemma hi_miss tr s x : HI tr s -> th s x = 0 -> HI (tr ++ [OMiss x]) s.
Proof.
  intros H Z. destruct H.
  assert (A : forall o, at_heap o (tr ++ [OMiss x]) = at_heap o tr) by (intros o; rewrite at_heap_app; apply app_nil_r).
  assert (T : forall y, armed (timeline (tr ++ [OMiss x])) y = armed (timeline tr) y).
  { intros y. rewrite timeline_app. cbn [timeline flat_map app]. rewrite armed_snoc. cbn [upd_armed].
    destruct (Nat.eqb_spec x y) as [<-|]; auto. symmetry. auto. }
  constructor; auto.
  - intros j y Q. rewrite busy_snoc. cbn. eauto.
  - intros o L. rewrite A. auto.
  - intros o v J. apply in_app_or in J. destruct J as [J|[J|[]]]; [auto|discriminate].
  - intros y o. rewrite A, T. auto.
  - intros y Q. rewrite T. auto.
  - destruct hi_ok0 as [P Q]. split; intros j J; apply in_app_or in J; destruct J as [J|[J|[]]]; try discriminate; [eapply P|eapply Q]; eauto.
Qed.
Lemma hi_call tr s k x e : HI tr s -> pcs s k = Idle -> busy tr x = false -> HI (tr ++ [OAfter k x e]) (set_pc s k (ALoad x e)).
Proof.
  intros H I B. destruct H.
  assert (A : forall o, at_heap o (tr ++ [OAfter k x e]) = at_heap o tr) by (intros o; rewrite at_heap_app; apply app_nil_r).
  assert (T : timeline (tr ++ [OAfter k x e]) = timeline tr) by (rewrite timeline_app; apply app_nil_r).
  assert (U : forall j, aft (pcs s j) <> Some x) by (intros j Q; rewrite (hi_busy0 j x Q) in B; discriminate).
  constructor; cbn [set_pc heaps objI nobj hp ti th heapI heapN heapM pcs]; auto; try rewrite T; auto.
  - intros j. destruct (Nat.eq_dec j k) as [->|N]; [rewrite fupd_eq; exact Logic.I|rewrite fupd_ne by auto; apply hi_pc0].
  - intros j. destruct (Nat.eq_dec j k) as [->|N]; [rewrite fupd_eq; discriminate|rewrite fupd_ne by auto; apply hi_lock0].
  - intros j y. rewrite busy_snoc. cbn [upd_busy]. destruct (Nat.eqb_spec x y) as [<-|Ny]; auto.
    destruct (Nat.eq_dec j k) as [->|N]; [rewrite fupd_eq; cbn; congruence|rewrite fupd_ne by auto; apply hi_busy0].
  - assert (G : forall j y, aft (fupd (pcs s) k (ALoad x e) j) = Some y -> (j = k /\ y = x) \/ (j <> k /\ aft (pcs s j) = Some y)).
    { intros j y. destruct (Nat.eq_dec j k) as [->|N]; [rewrite fupd_eq; cbn; intros [= ->]; auto|rewrite fupd_ne by auto; auto]. }
    intros a b y Qa Qb. apply G in Qa, Qb. destruct Qa as [[-> ->]|[Na Qa]], Qb as [[-> Y]|[Nb Qb]]; auto.
    + exfalso. eapply U; eauto. + subst y. exfalso. eapply U; eauto. + eapply hi_uniq0; eauto.
  - intros o L. rewrite A. auto.
  - intros o v J. apply in_app_or in J. destruct J as [J|[J|[]]]; [auto|discriminate].
  - intros y o. rewrite A. auto.
  - destruct hi_ok0 as [P Q]. split; intros j J; apply in_app_or in J; destruct J as [J|[J|[]]]; try discriminate; [eapply P|eapply Q]; eauto.
Qed.

Lemma index_lt i n m : 1 <= n <= m -> index i n < m.
Proof. intros L. unfold index. pose proof (Z.mod_pos_bound i (Z.of_nat n) ltac:(lia)). lia. Qed.

Lemma hi_step tr s e : HI tr s -> (forall k, e <> EHeapsFirst k) -> serial (tr ++ fst (step s e)) ->
  HI (tr ++ fst (step s e)) (snd (step s e)).
Proof.
  intros H NF Ser.
  assert (Nil : tr ++ [] = tr) by apply app_nil_r.
  destruct e as [k x d|k x|k|k n|k|o now]; cbn [step] in *.
  - destruct (pcs s k) eqn:E; cbn [fst snd] in *; rewrite ?Nil; auto.
    apply hi_call; auto. eapply (Ser tr k x d []). reflexivity.
  - destruct (pcs s k) eqn:E; cbn [fst snd] in *; rewrite ?Nil; auto.
    apply hi_quiet; [|exact Logic.I]. apply hi_setpc; [auto|exact Logic.I|auto|discriminate].
  - pose proof (hi_pc _ _ H k) as P. pose proof (hi_lock _ _ H k) as Lk. clear Ser.
    assert (Nth : forall j, j < nobj s -> nth_error (heaps s) j = Some j).
    { intros j L. rewrite (hi_heaps _ _ H). rewrite nth_error_nth' with (d := 0) by (rewrite seq_length; auto). rewrite seq_nth by auto. reflexivity. }
    unfold go. destruct (pcs s k) as [|x e|x e|x e i|x e i|x e i|x e i n|x e i n sl|x e i n|x e i|x e i|x e j|x e i sl|x e o|x e|x e o|x|x h|x o|] eqn:E;
      cbn [pc_ok locked] in P, Lk; cbn [fst snd]; rewrite ?Nil; auto.
    + apply hi_setpc; auto; rewrite ?E; destruct (Nat.eqb_spec (th s x) 0); cbn; auto; discriminate.
    + apply hi_setpc; [apply hi_setctr; auto|exact P|cbn; rewrite E; auto|discriminate].
    + apply hi_setpc; auto; rewrite ?E; destruct (i mod 10000 =? 0)%Z; cbn; auto; discriminate.
    + destruct (heapM s) as [m|] eqn:M; cbn [fst snd]; rewrite ?Nil; auto. apply hi_setpc; [|exact P|cbn; rewrite E; auto|reflexivity].
      apply hi_setlock; auto. intros j Lj. exfalso. pose proof (hi_lock _ _ H j Lj). congruence.
    + assert (Len : length (heaps s) = nobj s) by (rewrite (hi_heaps _ _ H); apply seq_length).
      specialize (Lk eq_refl). apply hi_setpc; auto; rewrite ?E; destruct (Nat.ltb_spec (length (heaps s)) n); cbn; auto; intuition lia.
    + destruct P as (P1 & P2 & ->). apply hi_grow; auto.
    + specialize (Lk eq_refl). apply hi_setpc; [apply hi_setn; tauto|cbn; tauto|cbn; rewrite E; auto|intros _; exact Lk].
    + specialize (Lk eq_refl).
      assert (H1 : HI tr (set_pc s k (NPick x e i))) by (apply hi_setpc; [auto|exact P|rewrite E; auto|discriminate]).
      apply (hi_setlock _ _ None) in H1; [exact H1|]. intros j. cbn. destruct (Nat.eq_dec j k) as [->|N]; [rewrite fupd_eq; discriminate|].
      rewrite fupd_ne by auto. intros Lj. pose proof (hi_lock _ _ H j Lj). congruence.
    + destruct (hi_N _ _ H). destruct (Nat.eqb_spec (heapN s) 0); [lia|]. cbn [fst snd]. rewrite Nil.
      apply hi_setpc; [auto|cbn; split; auto; apply index_lt; lia|rewrite E; auto|discriminate].
    + rewrite Nth by tauto. cbn [fst snd]. rewrite Nil. apply hi_setpc; [auto|exact P|rewrite E; auto|discriminate].
    + destruct P.
    + apply hi_setth; auto.
    + destruct (th s x) as [|j] eqn:T; [congruence|]. pose proof (hi_th _ _ H x) as Tx. rewrite T in Tx. rewrite Nth by lia. cbn [fst snd]. rewrite Nil.
      apply hi_setpc; [auto|cbn; split; auto; lia|rewrite E; auto|discriminate].
    + destruct P as [P1 P2]. destruct (hi_crit tr s o (Arm x e) (fupd (pcs s) k Idle) H P2) as (h & v & Q & HN).
      * intros y [Y|(f & Y)]; [discriminate|]. injection Y as <- <-. exact P1.
      * intros j. destruct (Nat.eq_dec j k) as [->|N]; [rewrite fupd_eq; auto|rewrite fupd_ne by auto; auto].
      * intros y f j Y. injection Y as <- <-. destruct (Nat.eq_dec j k) as [->|N]; [rewrite fupd_eq; discriminate|rewrite fupd_ne by auto].
        intros A. apply N. eapply (hi_uniq _ _ H); [exact A|]. rewrite E. reflexivity.
      * unfold on. rewrite Q. exact HN.
    + destruct (Nat.eqb_spec (th s x) 0); cbn [fst snd]; rewrite ?Nil.
      * apply hi_setpc; [apply hi_miss; auto|exact Logic.I|auto|discriminate].
      * apply hi_setpc; [auto|cbn; auto|auto|discriminate].
    + pose proof (hi_th _ _ H x) as Tx. destruct h as [|h]; [tauto|]. destruct P as [_ P]. rewrite P in Tx. cbn [Nat.sub]. rewrite Nat.sub_0_r. rewrite Nth by lia.
      cbn [fst snd]. rewrite Nil. apply hi_setpc; [auto|cbn; split; auto; lia|auto|discriminate].
    + destruct P as [P1 P2]. destruct (hi_crit tr s o (Stop x) (fupd (pcs s) k Idle) H P2) as (h & v & Q & HN).
      * intros y [Y|(f & Y)]; [|discriminate]. injection Y as <-. exact P1.
      * intros j. destruct (Nat.eq_dec j k) as [->|N]; [rewrite fupd_eq; auto|rewrite fupd_ne by auto; auto].
      * discriminate.
      * unfold on. rewrite Q. exact HN.
  - destruct (pcs s k) eqn:E; cbn [fst snd]; rewrite ?Nil; auto. pose proof (hi_pc _ _ H k) as P. rewrite E in P.
    assert (Lk : heapM s = Some k) by (apply (hi_lock _ _ H); rewrite E; reflexivity).
    destruct (Nat.eqb_spec n 0); cbn [fst snd]; rewrite ?Nil; auto.
    apply hi_setpc; [auto| |rewrite E; auto|auto]. cbn in P |- *. split; auto. destruct (n =? 1); lia.
  - destruct (NF k eq_refl).
  - destruct (Nat.ltb_spec o (nobj s)) as [L|L]; cbn [fst snd]; rewrite ?Nil; auto.
    destruct (hi_crit tr s o (Pop now) (pcs s) H L) as (h & v & Q & HN); auto.
    + intros y [Y|(f & Y)]; discriminate.
    + discriminate.
    + unfold on. rewrite Q. exact HN.
Qed.

Lemma serial_prefix a b : serial (a ++ b) -> serial a.
Proof. intros S pre k x e post ->. apply (S pre k x e (post ++ b)). rewrite <- app_assoc. reflexivity. Qed.
Lemma run_app s a b : run s (a ++ b) = let (t1, s1) := run s a in let (t2, s2) := run s1 b in (t1 ++ t2, s2).
Proof.
  revert s. induction a as [|e a IH]; intros s; cbn [run app].
  - destruct (run s b). reflexivity.
  - destruct (step s e) as [o s1]. rewrite IH. destruct (run s1 a) as [t1 s2]. destruct (run s2 b) as [t2 s3]. rewrite app_assoc. reflexivity.
Qed.
Theorem hi_run l tr s : run start l = (tr, s) -> counts_first l -> serial tr -> HI tr s.
Proof.
  revert tr s. induction l as [|e l IH] using rev_ind; intros tr s R C S.
  - injection R as <- <-. apply hi_start.
  - rewrite run_app in R. destruct (run start l) as [t1 s1] eqn:R1. cbn [run] in R. destruct (step s1 e) as [o s2] eqn:E.
    rewrite app_nil_r in R. injection R as <- <-.
    assert (H : HI t1 s1).
    { apply IH; auto. intros k J. apply (C k). apply in_or_app. auto. eapply serial_prefix; eauto. }
    pose proof (hi_step t1 s1 e H) as Q. rewrite E in Q. cbn [fst snd] in Q. apply Q; auto.
    intros k ->. apply (C k). apply in_or_app. right. left. auto.
Qed.
(** every step shows at most one thing, so every prefix of what is seen is itself a run *)
Lemma step_one s e : length (fst (step s e)) <= 1.
Proof.
  destruct e as [k x d|k x|k|k n|k|o now]; cbn [step].
  - destruct (pcs s k); cbn; lia.
  - destruct (pcs s k); cbn; lia.
  - unfold go, die. destruct (pcs s k); cbn; try lia;
      repeat match goal with |- context [match ?a with _ => _ end] => destruct a; cbn; try lia end.
  - destruct (pcs s k); cbn; try lia. destruct (n =? 0); cbn; lia.
  - destruct (pcs s k); cbn; lia.
  - destruct (o <? nobj s); cbn; try lia. destruct (on s o (Pop now)) as [[? ?]|]; cbn; lia.
Qed.
Lemma run_prefix l : forall s tr s' a b, run s l = (tr, s') -> tr = a ++ b ->
  exists l1 l2 s1, l = l1 ++ l2 /\ run s l1 = (a, s1).
Proof.
  induction l as [|e l IH]; intros s tr s' a b R Q; cbn [run] in R.
  - injection R as <- <-. symmetry in Q. apply app_eq_nil in Q. destruct Q as [-> ->]. exists [], [], s. auto.
  - pose proof (step_one s e) as O. destruct (step s e) as [o s1] eqn:E. cbn [fst] in O. destruct (run s1 l) as [t s2] eqn:R1. injection R as <- <-.
    destruct a as [|x a].
    + exists [], (e :: l), s. auto.
    + destruct o as [|y [|? ?]]; [| |cbn in O; lia].
      * cbn [app] in Q. destruct (IH _ _ _ (x :: a) b R1 Q) as (l1 & l2 & s3 & -> & R3). exists (e :: l1), l2, s3. split; auto.
        cbn [run]. rewrite E, R3. reflexivity.
      * cbn [app] in Q. injection Q as -> Q. destruct (IH _ _ _ a b R1 Q) as (l1 & l2 & s3 & -> & R3). exists (e :: l1), l2, s3. split; auto.
        cbn [run]. rewrite E, R3. reflexivity.
Qed.
Lemma hi_prefix l tr s a b : run start l = (tr, s) -> counts_first l -> serial tr -> tr = a ++ b -> exists s1, HI a s1.
Proof.
  intros R C S Q. destruct (run_prefix _ _ _ _ _ _ R Q) as (l1 & l2 & s1 & -> & R1). exists s1. eapply hi_run; eauto.
  - intros k J. apply (C k). apply in_or_app. auto.
  - subst tr. eapply serial_prefix; eauto.
Qed.
