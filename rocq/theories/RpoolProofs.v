(** Invariant of the pools of Readers. *)
From Coq Require Import List Bool Arith ZArith Lia.
Import ListNotations.
From Verif Require Import Base PrimModel.
From Verif Require PoolProofs.
From Verif Require Import RpoolModel RpoolSpec.
Open Scope nat_scope.
Notation Sep := PoolProofs.Sep. Notation sep_step := PoolProofs.sep_step. Notation nodup_app := PoolProofs.nodup_app.

Lemma upd_same {B} (f : nat -> B) k v : upd f k v k = v.
Proof. unfold upd. now rewrite Nat.eqb_refl. Qed.
Lemma upd_other {B} (f : nat -> B) k v i : i <> k -> upd f k v i = f i.
Proof. intro N. unfold upd. apply Nat.eqb_neq in N. now rewrite N. Qed.
Ltac fields := cbn [objs nxt pool cache pcs w_pc w_obj w_cache alloc ok fst snd] in *.
Ltac spl i k := destruct (Nat.eq_dec i k) as [->|?]; [rewrite ?upd_same in *|rewrite ?(upd_other _ k _ i) in * by assumption].
Lemma remove_incl {B} i : forall (l : list B) x, In x (remove_nth i l) -> In x l.
Proof. induction i as [|i IH]; intros [|y l] x X; cbn in *; auto. destruct X as [X|X]; [now left|right; now apply IH]. Qed.
Lemma remove_nodup {B} i : forall (l : list B), NoDup l -> NoDup (remove_nth i l).
Proof. induction i as [|i IH]; intros [|y l] N; cbn; auto; apply NoDup_cons_iff in N; destruct N as [N1 N2]; [exact N2|]. constructor; [intro X; now apply remove_incl in X|now apply IH]. Qed.
Lemma remove_gone {B} i : forall (l : list B) o, NoDup l -> nth_error l i = Some o -> ~ In o (remove_nth i l).
Proof.
  induction i as [|i IH]; intros [|y l] o N E; cbn in *; try discriminate; apply NoDup_cons_iff in N; destruct N as [N1 N2].
  - now injection E as ->.
  - intros [X|X]; [|now apply (IH l o N2)]. subst y. apply N1. now apply nth_error_In in E.
Qed.

Section Inv.
Context {A : Type}.
Implicit Types (s : st A) (t : list (obs A)) (c : pc A).
Definition owned c : list nat := match c with MSet o _ _ | MRun o _ | MClr o _ | MPut o _ | SInit o _ _ | SRun o _ | SStore o _ => [o] | _ => [] end.
Definition cached (x : option nat) : list nat := match x with Some o => [o] | None => [] end.
Definition called t (k : nat) (b : list Z) (d : dec A) : Prop := exists f, In (QCall k f b d) t.
(** what the call of k gives in the end *)
Definition due t (k : nat) (x : option A) (n : nat) : Prop := exists b d, called t k b d /\ alone d (fresh b) = x /\ n <= count d (fresh b).
Definition Loc (ob : nat -> pair) t (k : nat) c : Prop :=
  match c with
  | PNew => forall f b d, ~ In (QCall k f b d) t
  | MGet b d | SLoad b d | SCas _ b d | SNew b d | SInit _ b d => called t k b d
  | MSet o b d => ob o = (blank, blank) /\ called t k b d
  | MRun o d | SRun o d => due t k (alone d (ob o)) (count d (ob o))
  | MClr _ a | SStore _ a | PRet a => due t k (Some a) 0
  | MPut o a => ob o = (blank, blank) /\ due t k (Some a) 0
  | PPanic => due t k None 0
  end.
Record Inv t s : Prop := mkInv {
  iSep : Sep (pool s ++ cached (cache s)) (nxt s) (fun k => owned (pcs s k));
  iPool : forall o, In o (pool s) -> objs s o = (blank, blank);
  iLoc : forall k, Loc (objs s) t k (pcs s k);
  iRet : forall k a, In (QRet k a) t <-> pcs s k = PRet a;
  iPan : forall k, In (QPanic k) t <-> pcs s k = PPanic;
  iOne : forall k f b d f' b' d', In (QCall k f b d) t -> In (QCall k f' b' d') t -> f = f' /\ b = b' /\ d = d' }.
Lemma init_inv : Inv [] s_init.
Proof.
  split; cbn; try tauto; try (intros; split; [tauto|discriminate]).
  split; cbn; [intro; repeat constructor; tauto|tauto|intros k o [<-|[]]; lia].
Qed.
Lemma loc_transfer ob ob' t t' k c : Loc ob t k c -> (forall o, In o t -> In o t') -> (forall f b d, In (QCall k f b d) t' -> In (QCall k f b d) t) ->
  (forall o, In o (owned c) -> ob' o = ob o) -> Loc ob' t' k c.
Proof.
  intros L M C O. assert (CA : forall b d, called t k b d -> called t' k b d) by (intros b d [f F]; exists f; now apply M).
  assert (DU : forall x n, due t k x n -> due t' k x n) by (intros x n (b & d & F & G); exists b, d; split; [now apply CA|exact G]).
  destruct c; cbn [Loc owned] in *; auto; try (rewrite (O o (or_introl eq_refl)); auto).
  - intros f b d F. apply (L f b d). now apply C.
  - destruct L as [L1 L2]. auto.
  - destruct L as [L1 L2]. auto.
Qed.
(** a step of goroutine k *)
Lemma prog_inv t s k out s' : Inv t s -> pcs s k <> PNew -> (forall a, pcs s k <> PRet a) -> pcs s k <> PPanic ->
  (forall j, j <> k -> pcs s' j = pcs s j) -> nxt s <= nxt s' -> NoDup ((pool s' ++ cached (cache s')) ++ owned (pcs s' k)) ->
  (forall o, In o ((pool s' ++ cached (cache s')) ++ owned (pcs s' k)) -> In o ((pool s ++ cached (cache s)) ++ owned (pcs s k)) \/ nxt s <= o < nxt s') ->
  (forall o, In o (pool s') -> objs s' o = (blank, blank)) ->
  (forall o, o < nxt s -> ~ In o (owned (pcs s k)) -> objs s' o = objs s o) ->
  Loc (objs s') (t ++ out) k (pcs s' k) ->
  (out = [] /\ (forall a, pcs s' k <> PRet a) /\ pcs s' k <> PPanic \/ (exists a, out = [QRet k a] /\ pcs s' k = PRet a) \/ out = [QPanic k] /\ pcs s' k = PPanic) ->
  Inv (t ++ out) s'.
Proof.
  intros I N1 N2 N3 PC NX ND IN PO OB LO OUT.
  assert (NC : forall j f b d, In (QCall j f b d) (t ++ out) -> In (QCall j f b d) t).
  { intros j f b d X. apply in_app_or in X. destruct X as [X|X]; [exact X|]. destruct OUT as [(-> & _)|[(a & -> & _)|(-> & _)]]; cbn in X; intuition discriminate. }
  split.
  - apply (sep_step (pool s ++ cached (cache s)) (nxt s) (fun j => owned (pcs s j)) _ _ _ k (iSep _ _ I)); trivial. intros j J. now rewrite PC.
  - exact PO.
  - intro j. destruct (Nat.eq_dec j k) as [->|J]; [exact LO|]. rewrite (PC j J). apply (loc_transfer (objs s) _ t); [exact (iLoc _ _ I j)| |apply NC|].
    + intros o X. apply in_or_app. now left.
    + intros o X. apply OB; [apply (PoolProofs.sLt _ _ _ (iSep _ _ I) j); apply in_or_app; now right|]. intro Y. now apply (PoolProofs.sPair _ _ _ (iSep _ _ I) j k o J).
  - intros j a. rewrite in_app_iff, (iRet _ _ I j a). destruct (Nat.eq_dec j k) as [->|J].
    + destruct OUT as [(-> & O1 & O2)|[(a' & -> & O1)|(-> & O1)]].
      * split; [intros [X|[]]; now apply N2 in X|intro X; now apply O1 in X].
      * rewrite O1. split; [intros [X|[X|[]]]; [now apply N2 in X|congruence]|intro X; right; left; congruence].
      * rewrite O1. split; [intros [X|[X|[]]]; [now apply N2 in X|discriminate]|discriminate].
    + rewrite (PC j J). split; [intros [X|X]; [exact X|]|now left]. destruct OUT as [(-> & _)|[(a' & -> & _)|(-> & _)]]; cbn in X; intuition congruence.
  - intros j. rewrite in_app_iff, (iPan _ _ I j). destruct (Nat.eq_dec j k) as [->|J].
    + destruct OUT as [(-> & O1 & O2)|[(a' & -> & O1)|(-> & O1)]].
      * split; [intros [X|[]]; now apply N3 in X|intro X; now apply O2 in X].
      * rewrite O1. split; [intros [X|[X|[]]]; [now apply N3 in X|discriminate]|discriminate].
      * rewrite O1. split; [reflexivity|intros _; right; now left].
    + rewrite (PC j J). split; [intros [X|X]; [exact X|]|now left]. destruct OUT as [(-> & _)|[(a' & -> & _)|(-> & _)]]; cbn in X; intuition congruence.
  - intros j f b d f' b' d' X Y. apply NC in X, Y. now apply (iOne _ _ I j).
Qed.
Lemma called_app t k b d out : called t k b d -> called (t ++ out) k b d.
Proof. intros [f F]. exists f. apply in_or_app. now left. Qed.
Lemma due_app t k x n out : due t k x n -> due (t ++ out) k x n.
Proof. intros (b & d & F & G). exists b, d. split; [now apply called_app|exact G]. Qed.
Lemma due_le t k x n m : due t k x n -> m <= n -> due t k x m.
Proof. intros (b & d & F & G & H) L. exists b, d. split; [exact F|]. split; [exact G|lia]. Qed.
Lemma step_inv t s e : Inv t s -> Inv (t ++ fst (step s e)) (snd (step s e)).
Proof.
  intro I. assert (Z : Inv (t ++ fst (ok s)) (snd (ok s))) by (cbn; now rewrite app_nil_r).
  destruct e as [k f b d|k c|i]; cbn [step].
  - destruct (pcs s k) eqn:E; try exact Z. pose proof (iLoc _ _ I k) as L. rewrite E in L. cbn [Loc] in L.
    assert (LC : Loc (objs s) (t ++ [QCall k f b d]) k (match f with Marshal => MGet b d | Sbox => SLoad b d end)) by (destruct f; [exists Marshal|exists Sbox]; apply in_or_app; right; now left).
    fields. split; fields.
    + apply (sep_step (pool s ++ cached (cache s)) (nxt s) (fun j => owned (pcs s j)) _ _ _ k (iSep _ _ I)); trivial.
      * intros j J. now rewrite upd_other.
      * rewrite upd_same. pose proof (PoolProofs.sNd _ _ _ (iSep _ _ I) k) as N. cbn beta in N. rewrite E in N. destruct f; exact N.
      * rewrite upd_same. intros o O. left. rewrite E. destruct f; exact O.
    + exact (iPool _ _ I).
    + intro j. spl j k; [exact LC|]. apply (loc_transfer (objs s) _ t); [exact (iLoc _ _ I j)| | |trivial].
      * intros o O. apply in_or_app. now left.
      * intros f' b' d' X. apply in_app_or in X. destruct X as [X|[X|[]]]; [exact X|congruence].
    + intros j a. rewrite in_app_iff, (iRet _ _ I j a). spl j k.
      * rewrite E. split; [intros [X|[X|[]]]; discriminate|destruct f; discriminate].
      * split; [intros [X|[X|[]]]; [exact X|discriminate]|now left].
    + intros j. rewrite in_app_iff, (iPan _ _ I j). spl j k.
      * rewrite E. split; [intros [X|[X|[]]]; discriminate|destruct f; discriminate].
      * split; [intros [X|[X|[]]]; [exact X|discriminate]|now left].
    + intros j f1 b1 d1 f2 b2 d2 X Y. apply in_app_or in X, Y. destruct X as [X|[X|[]]]; destruct Y as [Y|[Y|[]]].
      * now apply (iOne _ _ I j).
      * injection Y as <- <- <- <-. now apply L in X.
      * injection X as <- <- <- <-. now apply L in Y.
      * injection X as <- <- <- <-. now injection Y as <- <- <-.
  - pose proof (iLoc _ _ I k) as L. pose proof (PoolProofs.sNd _ _ _ (iSep _ _ I) k) as N. pose proof (PoolProofs.sLt _ _ _ (iSep _ _ I) k) as LT. cbn beta in N, LT.
    assert (GO : forall out s1 v, (forall j, pcs s1 j = pcs s j) -> pcs s k <> PNew -> (forall a, pcs s k <> PRet a) -> pcs s k <> PPanic -> nxt s <= nxt s1 -> NoDup ((pool s1 ++ cached (cache s1)) ++ owned v) ->
      (forall o, In o ((pool s1 ++ cached (cache s1)) ++ owned v) -> In o ((pool s ++ cached (cache s)) ++ owned (pcs s k)) \/ nxt s <= o < nxt s1) ->
      (forall o, In o (pool s1) -> objs s1 o = (blank, blank)) -> (forall o, o < nxt s -> ~ In o (owned (pcs s k)) -> objs s1 o = objs s o) -> Loc (objs s1) (t ++ out) k v ->
      (out = [] /\ (forall a, v <> PRet a) /\ v <> PPanic \/ (exists a, out = [QRet k a] /\ v = PRet a) \/ out = [QPanic k] /\ v = PPanic) -> Inv (t ++ out) (w_pc s1 k v)).
    { intros out s1 v P1 P2 P3 P4 P5 P6 P7 P8 P9 P10 P11. apply (prog_inv t s k out (w_pc s1 k v)); fields; rewrite ?upd_same; trivial. intros j J. rewrite upd_other by exact J. apply P1. }
    destruct (pcs s k) as [|b d|o b d|o d|o a|o a|b d|p b d|o b d|b d|o d|o a|a|] eqn:E; try exact Z; cbn [owned Loc] in *; rewrite ?app_nil_r in N; rewrite ?app_nil_r in LT.
    + (* Get *) unfold get_pool.
      assert (NEW : Inv (t ++ fst (ok (w_pc (alloc s (blank, blank)) k (MSet (nxt s) b d)))) (snd (ok (w_pc (alloc s (blank, blank)) k (MSet (nxt s) b d))))).
      { apply GO; fields; trivial; try discriminate; try lia.
        - cbn [owned]. apply nodup_app. split; [exact N|]. split; [repeat constructor; tauto|]. intros x X [Y|[]]. subst x. apply LT in X. lia.
        - intros o X. cbn [owned] in *. rewrite app_nil_r. apply in_app_or in X. destruct X as [X|[X|[]]]; [now left|right; lia].
        - intros o X. rewrite upd_other; [now apply (iPool _ _ I)|]. assert (o < nxt s) by (apply LT; apply in_or_app; now left). lia.
        - intros o X _. apply upd_other. lia.
        - cbn [Loc]. rewrite upd_same. split; [reflexivity|now apply called_app].
        - left. split; [reflexivity|split; [discriminate|discriminate]]. }
      destruct c as [i|]; [|exact NEW]. destruct (nth_error (pool s) i) as [o|] eqn:NE; [|exact NEW]. assert (IO : In o (pool s)) by now apply nth_error_In in NE.
      pose proof N as NN. apply nodup_app in NN. destruct NN as (NN1 & NN2 & NN3).
      apply GO; fields; trivial; try discriminate.
      * cbn [owned]. apply nodup_app. split; [apply nodup_app; split; [now apply remove_nodup|split; [exact NN2|]]|split; [repeat constructor; tauto|]].
        -- intros x X. apply NN3. now apply remove_incl in X.
        -- intros x X [Y|[]]. subst x. apply in_app_or in X. destruct X as [X|X]; [now apply remove_gone in X|now apply (NN3 o)].
      * intros x X. left. cbn [owned] in *. rewrite app_nil_r. apply in_app_or in X. destruct X as [X|[X|[]]]; [|subst x; apply in_or_app; now left]. apply in_app_or in X. apply in_or_app. destruct X as [X|X]; [left; now apply remove_incl in X|now right].
      * intros x X. apply (iPool _ _ I). now apply remove_incl in X.
      * cbn [Loc]. split; [now apply (iPool _ _ I)|now apply called_app].
      * left. split; [reflexivity|split; [discriminate|discriminate]].
    + (* Body *) destruct L as [L1 L2]. destruct L2 as [f F]. apply GO; fields; trivial; try discriminate.
      * intros x X. now left.
      * intros x X. rewrite upd_other; [now apply (iPool _ _ I)|]. intros ->. apply nodup_app in N. destruct N as (_ & _ & N). apply (N o); [apply in_or_app; now left|now left].
      * intros x _ X. apply upd_other. intros ->. apply X. now left.
      * cbn [Loc]. rewrite upd_same, L1. exists b, d. split; [exists f; apply in_or_app; now left|]. now split.
      * left. split; [reflexivity|split; [discriminate|discriminate]].
    + (* read *) destruct d as [a| |f g]; cbn [alone count] in *.
      * apply GO; fields; trivial; try discriminate; [now left|exact (iPool _ _ I)| |left; split; [reflexivity|split; [discriminate|discriminate]]]. apply due_app. apply (due_le _ _ _ _ _ L). lia.
      * apply GO; fields; trivial; try discriminate; cbn [owned].
        -- rewrite app_nil_r. apply nodup_app in N. tauto.
        -- intros x X. left. rewrite app_nil_r in X. apply in_or_app. now left.
        -- exact (iPool _ _ I).
        -- apply due_app. apply (due_le _ _ _ _ _ L). lia.
        -- right. right. now split.
      * apply GO; fields; trivial; try discriminate.
        -- intros x X. now left.
        -- intros x X. rewrite upd_other; [now apply (iPool _ _ I)|]. intros ->. apply nodup_app in N. destruct N as (_ & _ & N). apply (N o); [apply in_or_app; now left|now left].
        -- intros x _ X. apply upd_other. intros ->. apply X. now left.
        -- cbn [Loc]. rewrite upd_same. apply due_app. apply (due_le _ _ _ _ _ L). lia.
        -- left. split; [reflexivity|split; [discriminate|discriminate]].
    + (* clear *) apply GO; fields; trivial; try discriminate.
      * intros x X. now left.
      * intros x X. spl x o; [reflexivity|now apply (iPool _ _ I)].
      * intros x _ X. apply upd_other. intros ->. apply X. now left.
      * cbn [Loc]. rewrite upd_same. split; [reflexivity|now apply due_app].
      * left. split; [reflexivity|split; [discriminate|discriminate]].
    + (* Put *) destruct L as [L1 L2]. pose proof N as NN. apply nodup_app in NN. destruct NN as (NN1 & NN2 & NN3). apply GO; fields; trivial; try discriminate; cbn [owned].
      * rewrite app_nil_r. cbn [app]. constructor; [|exact NN1]. intro X. apply (NN3 o X). now left.
      * intros x X. left. rewrite app_nil_r in X. cbn [app] in X. apply in_or_app. destruct X as [X|X]; [right; now left|now left].
      * intros x [X|X]; [now subst x|now apply (iPool _ _ I)].
      * now apply due_app.
      * right. left. now exists a.
    + (* load *) apply GO; fields; trivial; try discriminate; destruct (cache s); cbn [owned]; try discriminate.
      * rewrite app_nil_r. exact N.
      * rewrite app_nil_r. exact N.
      * intros x X. now left.
      * intros x X. now left.
      * exact (iPool _ _ I).
      * exact (iPool _ _ I).
      * now apply called_app.
      * now apply called_app.
      * left. split; [reflexivity|split; [discriminate|discriminate]].
      * left. split; [reflexivity|split; [discriminate|discriminate]].
    + (* CAS *)
      assert (NO : Inv (t ++ fst (ok (w_pc s k (SNew b d)))) (snd (ok (w_pc s k (SNew b d))))).
      { apply GO; fields; trivial; try discriminate; cbn [owned]; [now rewrite app_nil_r|now left|exact (iPool _ _ I)|now apply called_app|left; split; [reflexivity|split; [discriminate|discriminate]]]. }
      destruct (cache s) as [p'|] eqn:CA; [|exact NO]. destruct (Nat.eqb_spec p' p) as [->|]; [|exact NO].
      apply GO; fields; trivial; try discriminate; cbn [owned cached]; rewrite ?app_nil_r in *.
      * exact N.
      * intros x X. left. exact X.
      * exact (iPool _ _ I).
      * exact L.
      * left. split; [reflexivity|split; [discriminate|discriminate]].
    + (* init *) destruct L as [f F]. apply GO; fields; trivial; try discriminate.
      * intros x X. now left.
      * intros x X. rewrite upd_other; [now apply (iPool _ _ I)|]. intros ->. apply nodup_app in N. destruct N as (_ & _ & N). apply (N o); [apply in_or_app; now left|now left].
      * intros x _ X. apply upd_other. intros ->. apply X. now left.
      * cbn [Loc]. rewrite upd_same. exists b, d. split; [exists f; apply in_or_app; now left|]. now split.
      * left. split; [reflexivity|split; [discriminate|discriminate]].
    + (* new *) destruct L as [f F]. apply GO; fields; trivial; try discriminate; try lia; cbn [owned].
      * apply nodup_app. split; [exact N|]. split; [repeat constructor; tauto|]. intros x X [Y|[]]. subst x. apply LT in X. lia.
      * intros o X. rewrite app_nil_r. apply in_app_or in X. destruct X as [X|[X|[]]]; [now left|right; lia].
      * intros o X. rewrite upd_other; [now apply (iPool _ _ I)|]. assert (o < nxt s) by (apply LT; apply in_or_app; now left). lia.
      * intros o X _. apply upd_other. lia.
      * cbn [Loc]. rewrite upd_same. exists b, d. split; [exists f; apply in_or_app; now left|]. now split.
      * left. split; [reflexivity|split; [discriminate|discriminate]].
    + (* read *) destruct d as [a| |f g]; cbn [alone count] in *.
      * apply GO; fields; trivial; try discriminate; [now left|exact (iPool _ _ I)| |left; split; [reflexivity|split; [discriminate|discriminate]]]. apply due_app. apply (due_le _ _ _ _ _ L). lia.
      * apply GO; fields; trivial; try discriminate; cbn [owned].
        -- rewrite app_nil_r. apply nodup_app in N. tauto.
        -- intros x X. left. rewrite app_nil_r in X. apply in_or_app. now left.
        -- exact (iPool _ _ I).
        -- apply due_app. apply (due_le _ _ _ _ _ L). lia.
        -- right. right. now split.
      * apply GO; fields; trivial; try discriminate.
        -- intros x X. now left.
        -- intros x X. rewrite upd_other; [now apply (iPool _ _ I)|]. intros ->. apply nodup_app in N. destruct N as (_ & _ & N). apply (N o); [apply in_or_app; now left|now left].
        -- intros x _ X. apply upd_other. intros ->. apply X. now left.
        -- cbn [Loc]. rewrite upd_same. apply due_app. apply (due_le _ _ _ _ _ L). lia.
        -- left. split; [reflexivity|split; [discriminate|discriminate]].
    + (* store *) pose proof N as NN. apply nodup_app in NN. destruct NN as (NN1 & NN2 & NN3). apply nodup_app in NN1. destruct NN1 as (NN4 & NN5 & NN6). apply GO; fields; trivial; try discriminate; cbn [owned cached]; rewrite ?app_nil_r.
      * apply nodup_app. split; [exact NN4|]. split; [exact NN2|]. intros x X. apply NN3. apply in_or_app. now left.
      * intros x X. left. apply in_app_or in X. apply in_or_app. destruct X as [X|X]; [left; apply in_or_app; now left|now right].
      * exact (iPool _ _ I).
      * now apply due_app.
      * right. left. now exists a.
  - (* Drop *) fields. rewrite app_nil_r. assert (H : forall x, In x (remove_nth i (pool s) ++ cached (cache s)) -> In x (pool s ++ cached (cache s))).
    { intros x X. apply in_app_or in X. apply in_or_app. destruct X as [X|X]; [left; now apply remove_incl in X|now right]. }
    destruct I as [[S1 S2 S3] I2 I3 I4 I5 I6]. split; fields; trivial.
    + split; trivial.
      * intro k. specialize (S1 k). apply nodup_app in S1. destruct S1 as (A1 & B & C). apply nodup_app in A1. destruct A1 as (A1 & A2 & A3). apply nodup_app. split; [apply nodup_app; split; [now apply remove_nodup|split; [exact A2|]]|split; [exact B|]].
        -- intros x X. apply A3. now apply remove_incl in X.
        -- intros x X. apply C. now apply H.
      * intros k o O. apply (S3 k). apply in_app_or in O. apply in_or_app. destruct O as [O|O]; [left; now apply H|now right].
    + intros o O. apply I2. now apply remove_incl in O.
Qed.
Lemma run_inv es : forall t s t' s', Inv t s -> run s es = (t', s') -> Inv (t ++ t') s'.
Proof.
  induction es as [|e es IH]; intros t s t' s' I E; cbn [run] in E.
  - injection E as <- <-. now rewrite app_nil_r.
  - pose proof (step_inv t s e I) as I1. destruct (step s e) as [o s1]. destruct (run s1 es) as [o2 s2] eqn:R. injection E as <- <-. rewrite app_assoc. now apply (IH _ s1).
Qed.
Lemma start_inv es t s : start es = (t, s) -> Inv t s.
Proof. intro E. exact (run_inv es [] s_init t s init_inv E). Qed.
End Inv.
