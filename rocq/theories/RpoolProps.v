(** C112: marshal.Read, marshal.ReadTail, sbox.ReadFirst and sbox.ReadMany called by any number of goroutines, sharing Readers
    through the pool and the cache. A program [d] is what the call does with its Readers; [alone d (fresh b)] what it gives on new
    Readers of its own (None: it panics). *)
From Coq Require Import List Bool Arith ZArith Lia.
Import ListNotations.
From Verif Require Import Base PrimModel RpoolModel RpoolSpec RpoolProofs.
Open Scope nat_scope.

(** A call gives what it would give alone on a new Reader: whatever the other calls do and whichever Readers it is given. *)
Theorem C112_as_alone : forall A es t s k f b (d : dec A), start es = (t, s) -> In (QCall k f b d) t ->
  (forall a, In (QRet k a) t -> alone d (fresh b) = Some a) /\ (In (QPanic k) t -> alone d (fresh b) = None).
Proof.
  intros A es t s k f b d E C. apply start_inv in E. pose proof (iLoc _ _ E k) as L. split.
  - intros a R. apply (iRet _ _ E) in R. rewrite R in L. destruct L as (b' & d' & [f' F] & G & _). now destruct (iOne _ _ E k _ _ _ _ _ _ C F) as (_ & <- & <-).
  - intros R. apply (iPan _ _ E) in R. rewrite R in L. destruct L as (b' & d' & [f' F] & G & _). now destruct (iOne _ _ E k _ _ _ _ _ _ C F) as (_ & <- & <-).
Qed.
(** So two calls with the same bytes and the same target give the same, in whatever company. *)
Theorem C112_repeatable : forall A es t s es' t' s' k k' f f' b (d : dec A) a a', start es = (t, s) -> start es' = (t', s') ->
  In (QCall k f b d) t -> In (QCall k' f' b d) t' -> In (QRet k a) t -> In (QRet k' a') t' -> a = a'.
Proof.
  intros A es t s es' t' s' k k' f f' b d a a' E E' C C' R R'. apply (C112_as_alone _ _ _ _ _ _ _ _ E C) in R. apply (C112_as_alone _ _ _ _ _ _ _ _ E' C') in R'. congruence.
Qed.

Section Live.
Context {A : Type}.
Definition of_k (k : nat) (e : ev A) : bool := match e with Go j _ => j =? k | _ => false end.
Definition rank (ob : nat -> pair) (c : pc A) : nat :=
  match c with
  | PNew | PRet _ | PPanic => 0
  | MGet b d | SLoad b d => 4 + count d (fresh b)
  | MSet _ b d | SCas _ b d => 3 + count d (fresh b)
  | MRun o d => 2 + count d (ob o)
  | MClr _ _ => 2
  | MPut _ _ => 1
  | SInit _ b d | SNew b d => 2 + count d (fresh b)
  | SRun o d => 1 + count d (ob o)
  | SStore _ _ => 1
  end.
Lemma step_rank t (s : st A) k e : Inv t s -> pcs s k <> PNew ->
  rank (objs (snd (step s e))) (pcs (snd (step s e)) k) + (if of_k k e then 1 else 0) <= Nat.max (rank (objs s) (pcs s k)) (if of_k k e then 1 else 0) /\ pcs (snd (step s e)) k <> PNew.
Proof.
  intros I B. assert (Z : rank (objs s) (pcs s k) + 0 <= Nat.max (rank (objs s) (pcs s k)) 0 /\ pcs s k <> PNew) by (split; [lia|exact B]).
  assert (SAME : forall s', pcs s' k = pcs s k -> (forall o, o < nxt s -> In o (owned (pcs s k)) -> objs s' o = objs s o) -> rank (objs s') (pcs s' k) + 0 <= Nat.max (rank (objs s) (pcs s k)) 0 /\ pcs s' k <> PNew).
  { intros s' P O. rewrite P. split; [|exact B]. assert (L : forall o, In o (owned (pcs s k)) -> o < nxt s) by (intros o X; apply (PoolProofs.sLt _ _ _ (iSep _ _ I) k); apply in_or_app; now right).
    destruct (pcs s k) eqn:E; cbn [rank owned] in *; try lia; rewrite (O o) by (try apply L; now left); lia. }
  destruct e as [j f b d|j c|i]; cbn [step of_k].
  - destruct (pcs s j) eqn:E; try exact Z. apply SAME; fields; [|trivial]. spl k j; [now rewrite E in B|reflexivity].
  - destruct (Nat.eqb_spec j k) as [->|N].
    + pose proof (iLoc _ _ I k) as L. destruct (pcs s k) as [|b d|o b d|o d|o a|o a|b d|p b d|o b d|b d|o d|o a|a|] eqn:E; try (now destruct B); cbn [Loc] in L.
      * unfold get_pool. assert (NEW : rank (objs (snd (ok (w_pc (alloc s (blank, blank)) k (MSet (nxt s) b d))))) (pcs (snd (ok (w_pc (alloc s (blank, blank)) k (MSet (nxt s) b d)))) k) + 1 <= Nat.max (4 + count d (fresh b)) 1 /\ pcs (snd (ok (w_pc (alloc s (blank, blank)) k (MSet (nxt s) b d)))) k <> PNew)
          by (fields; rewrite upd_same; cbn [rank]; split; [lia|discriminate]).
        destruct c as [i|]; [|exact NEW]. destruct (nth_error (pool s) i) as [o|]; [|exact NEW]. fields. rewrite upd_same. cbn [rank]. split; [lia|discriminate].
      * destruct L as [L _]. fields. rewrite !upd_same. cbn [rank]. rewrite upd_same, L. change (mkRd b (r_err (fst (blank, blank))), snd (blank, blank)) with (fresh b). split; [lia|discriminate].
      * destruct d as [a| |f g]; fields; rewrite !upd_same; cbn [rank count]; rewrite ?upd_same; (split; [lia|discriminate]).
      * fields. rewrite !upd_same. cbn [rank]. split; [lia|discriminate].
      * fields. rewrite !upd_same. cbn [rank]. split; [lia|discriminate].
      * fields. rewrite !upd_same. destruct (cache s); cbn [rank]; (split; [lia|discriminate]).
      * destruct (cache s) as [p'|]; [destruct (p' =? p)|]; fields; rewrite !upd_same; cbn [rank]; (split; [lia|discriminate]).
      * fields. rewrite !upd_same. cbn [rank]. rewrite upd_same. change (mkRd b None, blank) with (fresh b). split; [lia|discriminate].
      * fields. rewrite !upd_same. cbn [rank]. rewrite upd_same. change (mkRd b None, blank) with (fresh b). split; [lia|discriminate].
      * destruct d as [a| |f g]; fields; rewrite !upd_same; cbn [rank count]; rewrite ?upd_same; (split; [lia|discriminate]).
      * fields. rewrite !upd_same. cbn [rank]. split; [lia|discriminate].
      * fields. rewrite E. cbn [rank]. split; [lia|discriminate].
      * fields. rewrite E. cbn [rank]. split; [lia|discriminate].
    + assert (X : forall o, In o (owned (pcs s j)) -> ~ In o (owned (pcs s k))) by (intros o Y1 Y2; now apply (PoolProofs.sPair _ _ _ (iSep _ _ I) j k o N)).
      assert (ST : forall s1, pcs s1 = pcs s -> (forall o, o < nxt s -> ~ In o (owned (pcs s j)) -> objs s1 o = objs s o) -> forall v, let s' := w_pc s1 j v in rank (objs s') (pcs s' k) + 0 <= Nat.max (rank (objs s) (pcs s k)) 0 /\ pcs s' k <> PNew).
      { intros s1 P O v s'. apply SAME; unfold s'; fields; [rewrite upd_other by congruence; now rewrite P|]. intros o O1 O2. apply O; [exact O1|]. intro Y. now apply (X o). }
      destruct (pcs s j) as [|b d|o b d|o d|o a|o a|b d|p b d|o b d|b d|o d|o a|a|] eqn:E; try exact Z; cbn [owned] in *.
      * unfold get_pool. assert (NEW : rank (objs (snd (ok (w_pc (alloc s (blank, blank)) j (MSet (nxt s) b d))))) (pcs (snd (ok (w_pc (alloc s (blank, blank)) j (MSet (nxt s) b d)))) k) + 0 <= Nat.max (rank (objs s) (pcs s k)) 0 /\ pcs (snd (ok (w_pc (alloc s (blank, blank)) j (MSet (nxt s) b d)))) k <> PNew)
          by (apply ST; fields; [reflexivity|intros o O _; apply upd_other; lia]).
        destruct c as [i|]; [|exact NEW]. destruct (nth_error (pool s) i) as [o|]; [|exact NEW]. apply ST; trivial.
      * apply ST; fields; [reflexivity|]. intros x _ Y. apply upd_other. intros ->. apply Y. now left.
      * destruct d as [a| |f g]; apply ST; fields; trivial. intros x _ Y. apply upd_other. intros ->. apply Y. now left.
      * apply ST; fields; [reflexivity|]. intros x _ Y. apply upd_other. intros ->. apply Y. now left.
      * apply ST; trivial.
      * apply ST; trivial.
      * destruct (cache s) as [p'|]; [destruct (p' =? p)|]; apply ST; trivial.
      * apply ST; fields; [reflexivity|]. intros x _ Y. apply upd_other. intros ->. apply Y. now left.
      * apply ST; fields; [reflexivity|]. intros x O _. apply upd_other. lia.
      * destruct d as [a| |f g]; apply ST; fields; trivial. intros x _ Y. apply upd_other. intros ->. apply Y. now left.
      * apply ST; trivial.
  - exact Z.
Qed.
Lemma run_rank es : forall t (s : st A) k, Inv t s -> pcs s k <> PNew ->
  rank (objs (snd (run s es))) (pcs (snd (run s es)) k) <= rank (objs s) (pcs s k) - length (filter (of_k k) es) /\ pcs (snd (run s es)) k <> PNew.
Proof.
  induction es as [|e es IH]; intros t s k I B; cbn [run filter].
  - cbn. split; [lia|exact B].
  - destruct (step_rank t s k e I B) as [R B1]. pose proof (step_inv t s e I) as I1. destruct (step s e) as [o s1]. cbn [fst snd] in *. destruct (IH _ s1 k I1 B1) as [R2 B2].
    destruct (run s1 es) as [o2 s2]. cbn [fst snd] in *. split; [|exact B2]. destruct (of_k k e); cbn [length]; lia.
Qed.
Lemma run_app es1 : forall es2 (s : st A), run s (es1 ++ es2) = (fst (run s es1) ++ fst (run (snd (run s es1)) es2), snd (run (snd (run s es1)) es2)).
Proof.
  induction es1 as [|e es1 IH]; intros es2 s; cbn [run app].
  - cbn. now destruct (run s es2).
  - destruct (step s e) as [o s1]. rewrite IH. destruct (run s1 es1) as [o1 s2]. cbn [fst snd]. destruct (run s2 es2) as [o2 s3]. cbn. now rewrite app_assoc.
Qed.
(** the budget of a call *)
Definition within (k : nat) (b : list Z) (d : dec A) (t : list (obs A)) (s : st A) : Prop := (exists f, In (QCall k f b d) t) -> rank (objs s) (pcs s k) <= 4 + count d (fresh b).
Lemma loc_rank t (s : st A) k b d : Inv t s -> within k b d t s.
Proof.
  intros I [f C]. pose proof (iLoc _ _ I k) as L.
  assert (CA : forall b' d', called t k b' d' -> b' = b /\ d' = d) by (intros b' d' [f' F]; destruct (iOne _ _ I k _ _ _ _ _ _ C F) as (_ & -> & ->); now split).
  assert (DU : forall x n, due t k x n -> n <= count d (fresh b)) by (intros x n (b' & d' & F & _ & G); apply CA in F; destruct F as [-> ->]; exact G).
  assert (ONE : 1 <= count d (fresh b)) by (destruct d; cbn; lia).
  destruct (pcs s k); cbn [rank Loc] in *; try lia; try (destruct (CA _ _ L) as [-> ->]; lia); try (apply DU in L; lia).
  destruct L as [_ L]. destruct (CA _ _ L) as [-> ->]. lia.
Qed.
End Live.
(** No call waits for another: it ends after as many steps of its own as its program has, and four more. *)
Theorem C112_wait_free : forall A es es' t s t' s' k f b (d : dec A), start es = (t, s) -> In (QCall k f b d) t -> start (es ++ es') = (t', s') ->
  4 + count d (fresh b) <= length (filter (of_k k) es') -> (exists a, In (QRet k a) t') \/ In (QPanic k) t'.
Proof.
  intros A es es' t s t' s' k f b d E C E' LE. pose proof (start_inv _ _ _ E) as I. pose proof (start_inv _ _ _ E') as I'.
  unfold start in *. rewrite run_app, E in E'. cbn [fst snd] in E'. injection E' as E1 E2.
  assert (B : pcs s k <> PNew) by (intro X; pose proof (iLoc _ _ I k) as L; rewrite X in L; now apply (L f b d)).
  destruct (run_rank es' t s k I B) as [R B']. rewrite E2 in *. assert (W : rank (objs s) (pcs s k) <= 4 + count d (fresh b)) by (apply (loc_rank t s k b d I); now exists f).
  assert (O : forall c : pc A, 1 <= rank (objs s') c \/ c = PNew \/ (exists a, c = PRet a) \/ c = PPanic) by (intros []; cbn [rank]; eauto; left; lia).
  destruct (O (pcs s' k)) as [X|[X|[[a X]|X]]]; [lia|now destruct B'| |].
  - left. exists a. now apply (iRet _ _ I').
  - right. now apply (iPan _ _ I').
Qed.

(** Three calls: the program takes a byte and gives it with the error; on no bytes it sets the error; a 9 makes it panic. Call 2
    is given the Reader call 1 left, call 4 finds the cache taken by call 3. *)
Definition take1 : dec (option Z * bool) :=
  DStep (fun r => match r_body (fst r) with [] => (mkRd [] (Some EShort), snd r) | _ :: l => (mkRd l (r_err (fst r)), mkRd [1%Z] (Some EShort)) end)
        (fun r => match r_body (fst r) with [9%Z] => DBoom | x => DStep (fun r => r) (fun r => DRet (hd_error x, match r_err (fst r), r_err (snd r) with None, _ => true | _, _ => false end)) end).
Definition gos (k : nat) (n : nat) : list (ev (option Z * bool)) := repeat (Go k (Some 0)) n.
Definition results {B} (t : list (obs B)) : list (nat * option B) := flat_map (fun o => match o with QRet k a => [(k, Some a)] | QPanic k => [(k, None)] | _ => [] end) t.
Definition hist : list (ev (option Z * bool)) :=
  [Call 1 Marshal [] take1; Call 2 Marshal [5%Z; 6%Z] take1; Call 3 Sbox [7%Z] take1; Call 4 Sbox [] take1; Call 5 Sbox [8%Z] take1; Call 6 Marshal [9%Z] take1] ++
  gos 1 7 ++ gos 2 3 ++ gos 3 2 ++ gos 4 6 ++ gos 2 4 ++ gos 3 5 ++ gos 5 7 ++ gos 6 4.
Example hist_ends : results (fst (start hist)) = [(1, Some (None, false)); (4, Some (None, false)); (2, Some (Some 5%Z, true)); (3, Some (Some 7%Z, true)); (5, Some (Some 8%Z, true)); (6, None)].
Proof. vm_compute. reflexivity. Qed.
(** the Readers are indeed shared: six calls, three Readers or pairs of Readers in all *)
Example hist_shared : (nxt (snd (start hist)), pool (snd (start hist)), cache (snd (start hist))) = (3, [], Some 0).
Proof. vm_compute. reflexivity. Qed.
Example alone_cases : (alone take1 (fresh []), alone take1 (fresh [5%Z; 6%Z]), alone take1 (fresh [9%Z])) = (Some (None, false), Some (Some 5%Z, true), None).
Proof. reflexivity. Qed.

Print Assumptions C112_as_alone.
Print Assumptions C112_repeatable.
Print Assumptions C112_wait_free.
