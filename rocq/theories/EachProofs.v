(** Proofs about EachModel.v. *)
From Coq Require Import List Bool Arith Lia Permutation.
Import ListNotations.
From Verif Require Import EachModel EachSpec.

(** ** lists *)
Lemma put_length : forall {A} (l : list A) i x, length (put l i x) = length l.
Proof. induction l as [|y l IH]; intros [|i] x; cbn; auto. Qed.
Lemma put_same : forall {A} (l : list A) i x y, nth_error l i = Some y -> nth_error (put l i x) i = Some x.
Proof. induction l as [|z l IH]; intros [|i] x y H; try discriminate; cbn in *; eauto. Qed.
Lemma put_other : forall {A} (l : list A) i j x, i <> j -> nth_error (put l i x) j = nth_error l j.
Proof. induction l as [|z l IH]; intros [|i] [|j] x H; cbn in *; auto; congruence. Qed.
Lemma put_cases : forall {A} (l : list A) i j x z y, nth_error l i = Some z -> nth_error (put l i x) j = Some y -> (j = i /\ y = x) \/ (j <> i /\ nth_error l j = Some y).
Proof.
  intros A l i j x z y H1 H2. destruct (Nat.eq_dec j i) as [->|N].
  - rewrite (put_same _ _ _ _ H1) in H2. left. split; congruence.
  - rewrite put_other in H2 by congruence. auto.
Qed.

Definition pending (p : rpc) : bool := match p with RIdle | RLock | RRead | RSend _ => true | _ => false end.
Definition counted (p : rpc) : bool := match p with RClose | RShut _ | RDone => true | _ => false end.
Definition closer (p : rpc) : bool := match p with RClose | RShut _ => true | _ => false end.
Fixpoint pend (k : nat) (l : list rpc) : list nat := match l with [] => [] | p :: l => (if pending p then [k] else []) ++ pend (S k) l end.
Fixpoint cntd (l : list rpc) : nat := match l with [] => 0 | p :: l => (if counted p then 1 else 0) + cntd l end.

Lemma cntd_le : forall l, cntd l <= length l.
Proof. induction l as [|p l IH]; cbn; [lia|]. destruct (counted p); lia. Qed.
Lemma cntd_lt : forall l i p, nth_error l i = Some p -> counted p = false -> cntd l < length l.
Proof.
  induction l as [|q l IH]; intros [|i] p H K; try discriminate; cbn in *.
  - injection H as ->. rewrite K. pose proof (cntd_le l). lia.
  - specialize (IH _ _ H K). destruct (counted q); lia.
Qed.
Lemma cntd_put : forall l i p q, nth_error l i = Some p -> counted p = counted q -> cntd (put l i q) = cntd l.
Proof.
  induction l as [|z l IH]; intros [|i] p q H K; try discriminate; cbn in *.
  - injection H as ->. now rewrite K.
  - now rewrite (IH _ _ _ H K).
Qed.
Lemma cntd_put_S : forall l i p q, nth_error l i = Some p -> counted p = false -> counted q = true -> cntd (put l i q) = S (cntd l).
Proof.
  induction l as [|z l IH]; intros [|i] p q H K L; try discriminate; cbn in *.
  - injection H as ->. now rewrite K, L.
  - rewrite (IH _ _ _ H K L). destruct (counted z); lia.
Qed.
Lemma pend_put : forall l k i p q, nth_error l i = Some p -> pending p = pending q -> pend k (put l i q) = pend k l.
Proof.
  induction l as [|z l IH]; intros k [|i] p q H K; try discriminate; cbn in *.
  - injection H as ->. now rewrite K.
  - now rewrite (IH _ _ _ _ H K).
Qed.
Lemma pend_put_out : forall l k i p q, nth_error l i = Some p -> pending p = true -> pending q = false -> Permutation (pend k l) (k + i :: pend k (put l i q)).
Proof.
  induction l as [|z l IH]; intros k [|i] p q H K L; try discriminate; cbn in *.
  - injection H as ->. rewrite K, L, Nat.add_0_r. reflexivity.
  - specialize (IH (S k) _ _ _ H K L). replace (k + S i) with (S k + i) by lia. rewrite IH. apply Permutation_sym, Permutation_middle.
Qed.
Lemma concat_put : forall l k ch x f, nth_error l k = Some ch ->
  Permutation (x :: concat (map buf l)) (concat (map buf (put l k (mkChan (buf ch ++ [x]) f)))).
Proof.
  induction l as [|z l IH]; intros [|k] ch x f H; try discriminate; cbn in *.
  - injection H as ->. rewrite <- app_assoc. cbn. apply Permutation_middle.
  - rewrite <- (IH _ _ x f H). apply Permutation_middle.
Qed.
Lemma concat_put_same : forall l k ch f, nth_error l k = Some ch -> concat (map buf (put l k (mkChan (buf ch) f))) = concat (map buf l).
Proof.
  induction l as [|z l IH]; intros [|k] ch f H; try discriminate; cbn in *; [now injection H as ->|]. now rewrite (IH _ _ f H).
Qed.
Lemma in_concat_len : forall (l : list chan) k ch, nth_error l k = Some ch -> length (buf ch) <= length (concat (map buf l)).
Proof.
  induction l as [|z l IH]; intros [|k] ch H; try discriminate; cbn in *; rewrite app_length; [injection H as ->; lia|].
  specialize (IH _ _ H). lia.
Qed.

(** ** invariant of all schedules *)
Definition inhand (s : st) : list nat := match u s with UMove l => l | _ => [] end.
Definition pc_ok (n : nat) (p : rpc) : Prop :=
  match p with RSend k | RShut k => k < n | RRead | RAdd | RClose => 0 < n | _ => True end.
Definition u_ok (n : nat) (p : upc) : Prop := match p with UOut | UMake => True | _ => 0 < n end.
Record inv (r : nat) (s : st) : Prop := mkInv {
  i_len : length (rs s) = r;
  i_perm : Permutation (pend 0 (rs s) ++ inhand s ++ held s ++ sent s) (seq 0 r);
  i_cnt : c s = cntd (rs s);
  i_pcs : forall i p, nth_error (rs s) i = Some p -> pc_ok (length (chs s)) p;
  i_u : u_ok (length (chs s)) (u s);
  i_held : chs s <> [] -> held s = [];
  i_full : forall i p, nth_error (rs s) i = Some p -> closer p = true -> c s = r;
  i_one : forall i j p q, nth_error (rs s) i = Some p -> nth_error (rs s) j = Some q -> closer p = true -> closer q = true -> i = j }.

Lemma inv_start : forall r, inv r (start r).
Proof.
  intros r. assert (P : forall k n, pend k (repeat RIdle n) = seq k n) by (intros k n; revert k; induction n as [|n IH]; intros k; cbn; auto; now rewrite IH).
  assert (N : forall n i p, nth_error (repeat RIdle n) i = Some p -> p = RIdle).
  { intros n i p H. apply nth_error_In, repeat_spec in H. exact H. }
  constructor; cbn.
  - apply repeat_length.
  - rewrite P, app_nil_r. reflexivity.
  - induction r as [|r IH]; cbn; auto.
  - intros i p H. apply N in H. subst. exact Logic.I.
  - exact Logic.I.
  - auto.
  - intros i p H K. apply N in H. subst. discriminate.
  - intros i j p q H H' K. apply N in H. subst. discriminate.
Qed.

(** a step of a Respond that only changes its place, between places that are counted alike *)
Lemma inv_move : forall r s i p q, inv r s -> nth_error (rs s) i = Some p -> pending p = pending q -> counted p = counted q -> closer p = closer q ->
  pc_ok (length (chs s)) q -> inv r (at_r s i q).
Proof.
  intros r s i p q [L P C K UU H F O] E E1 E2 E3 Q. constructor; cbn; auto.
  - now rewrite put_length.
  - unfold inhand, sent in *. cbn. now rewrite (pend_put _ _ _ _ _ E E1).
  - now rewrite (cntd_put _ _ _ _ E E2).
  - intros j x X. destruct (put_cases _ _ _ _ _ _ E X) as [[_ ->]|[_ X']]; eauto.
  - intros j x X Y. destruct (put_cases _ _ _ _ _ _ E X) as [[_ ->]|[_ X']]; [|eauto]. apply (F i p E). congruence.
  - intros j k x y X Y X1 Y1. destruct (put_cases _ _ _ _ _ _ E X) as [[-> ->]|[_ X']]; destruct (put_cases _ _ _ _ _ _ E Y) as [[-> ->]|[_ Y']]; auto.
    + apply (O i k p y E Y'); congruence.
    + apply (O j i x p X' E); congruence.
    + eauto.
Qed.
Lemma inv_die : forall r s, inv r s -> inv r (die s).
Proof. intros r s [L P C K UU H F O]. constructor; cbn; auto. Qed.

Lemma inv_respond : forall r s i s', inv r s -> respond s i = Some s' -> inv r s'.
Proof.
  intros r s i s' V E. pose proof V as [L P C K UU H F O]. unfold respond in E. destruct (nth_error (rs s) i) as [p|] eqn:N; [|discriminate].
  pose proof (K _ _ N) as Q. destruct p as [| | |k| | |k|]; cbn [pc_ok] in Q; try discriminate.
  - injection E as <-. destruct (chs s) eqn:X; eapply inv_move; eauto; rewrite ?X; cbn; lia.
  - destruct (locked s) eqn:LK; [discriminate|]. destruct (chs s) as [|ch l] eqn:X; injection E as <-.
    + constructor; cbn [at_r rs held c chs u got dead]; unfold sent, inhand in *; rewrite ?X in *; cbn [chs rs u held map concat] in *; auto.
      * now rewrite put_length.
      * pose proof (pend_put_out _ 0 _ _ RDone N eq_refl eq_refl) as PP. rewrite PP in P. cbn [Nat.add app] in P. rewrite <- P.
        rewrite !app_nil_r in *. rewrite (app_assoc (pend 0 (put (rs s) i RDone))). rewrite (app_assoc _ (held s) [i]). rewrite <- Permutation_cons_append. now rewrite <- app_assoc.
      * now rewrite (cntd_put_S _ _ _ RDone N eq_refl eq_refl), C.
      * intros j x Y. destruct (put_cases _ _ _ _ _ _ N Y) as [[_ ->]|[_ Y']]; [exact Logic.I|eauto].
      * congruence.
      * intros j x Y Z. destruct (put_cases _ _ _ _ _ _ N Y) as [[_ ->]|[_ Y']]; [discriminate|]. pose proof (F _ _ Y' Z). pose proof (cntd_lt _ _ _ N eq_refl). lia.
      * intros j k x y Y Z Y1 Z1. destruct (put_cases _ _ _ _ _ _ N Y) as [[_ ->]|[_ Y']]; [discriminate|].
        destruct (put_cases _ _ _ _ _ _ N Z) as [[_ ->]|[_ Z']]; [discriminate|eauto].
    + eapply inv_move; eauto. rewrite X. cbn. lia.
  - injection E as <-. eapply inv_move; eauto. unfold cur. cbn. lia.
  - unfold send in E. destruct (nth_error (chs s) k) as [ch|] eqn:X; [|discriminate]. destruct (closed ch); [injection E as <-; now apply inv_die|].
    destruct (total s <=? length (buf ch)); [discriminate|]. injection E as <-.
    constructor; cbn [at_r with_chs rs held c chs u got dead]; auto.
    * now rewrite put_length.
    * unfold sent, inhand in *. cbn [at_r with_chs rs held c chs u got dead]. rewrite <- (concat_put _ _ _ i false X). rewrite <- P.
      rewrite (pend_put_out _ 0 _ _ RAdd N eq_refl eq_refl). cbn [Nat.add app]. rewrite !app_assoc. rewrite <- Permutation_middle. reflexivity.
    * now rewrite (cntd_put _ _ _ RAdd N eq_refl).
    * rewrite put_length. intros j x Y. destruct (put_cases _ _ _ _ _ _ N Y) as [[_ ->]|[_ Y']]; [cbn; lia|eauto].
    * now rewrite put_length.
    * intros Z. apply H. intros Z'. rewrite Z' in X. now destruct k.
    * intros j x Y Z. destruct (put_cases _ _ _ _ _ _ N Y) as [[_ ->]|[_ Y']]; [discriminate|eauto].
    * intros j m x y Y Z Y1 Z1. destruct (put_cases _ _ _ _ _ _ N Y) as [[_ ->]|[_ Y']]; [discriminate|].
      destruct (put_cases _ _ _ _ _ _ N Z) as [[_ ->]|[_ Z']]; [discriminate|eauto].
  - remember (S (c s) =? total s) as t eqn:T. injection E as <-. pose proof (cntd_lt _ _ _ N eq_refl) as LT. assert (CC : counted (if t then RClose else RDone) = true) by (destruct t; reflexivity).
    assert (PP : pending (if t then RClose else RDone) = false) by (destruct t; reflexivity).
    constructor; cbn [at_r with_chs rs held c chs u got dead]; auto.
    * now rewrite put_length.
    * unfold sent, inhand in *. cbn [at_r with_chs rs held c chs u got dead]. now rewrite (pend_put _ 0 _ _ _ N (eq_sym PP : pending RAdd = _)).
    * now rewrite (cntd_put_S _ _ _ _ N eq_refl CC), C.
    * intros j x Y. destruct (put_cases _ _ _ _ _ _ N Y) as [[_ ->]|[_ Y']]; [|eauto]. destruct t; cbn; auto.
    * intros j x Y Z. destruct (put_cases _ _ _ _ _ _ N Y) as [[_ ->]|[_ Y']].
      -- destruct t; [|discriminate]. symmetry in T; apply Nat.eqb_eq in T. unfold total in T. lia.
      -- pose proof (F _ _ Y' Z). lia.
    * intros j m x y Y Z Y1 Z1. destruct (put_cases _ _ _ _ _ _ N Y) as [[-> ->]|[_ Y']]; destruct (put_cases _ _ _ _ _ _ N Z) as [[-> ->]|[_ Z']]; auto.
      -- pose proof (F _ _ Z' Z1). lia.
      -- pose proof (F _ _ Y' Y1). lia.
      -- eauto.
  - injection E as <-. eapply inv_move; eauto. unfold cur. cbn. lia.
  - unfold shut in E. destruct (nth_error (chs s) k) as [ch|] eqn:X; [|discriminate]. destruct (closed ch); [injection E as <-; now apply inv_die|]. injection E as <-.
    constructor; cbn [at_r with_chs rs held c chs u got dead]; auto.
    * now rewrite put_length.
    * unfold sent, inhand in *. cbn [at_r with_chs rs held c chs u got dead]. rewrite (concat_put_same _ _ _ true X). now rewrite (pend_put _ 0 _ _ RDone N eq_refl).
    * now rewrite (cntd_put _ _ _ RDone N eq_refl).
    * rewrite put_length. intros j x Y. destruct (put_cases _ _ _ _ _ _ N Y) as [[_ ->]|[_ Y']]; [cbn; lia|eauto].
    * now rewrite put_length.
    * intros Z. apply H. intros Z'. rewrite Z' in X. now destruct k.
    * intros j x Y Z. destruct (put_cases _ _ _ _ _ _ N Y) as [[_ ->]|[_ Y']]; [discriminate|eauto].
    * intros j m x y Y Z Y1 Z1. destruct (put_cases _ _ _ _ _ _ N Y) as [[_ ->]|[_ Y']]; [discriminate|].
      destruct (put_cases _ _ _ _ _ _ N Z) as [[_ ->]|[_ Z']]; [discriminate|eauto].
Qed.
Lemma inv_u : forall r s q, inv r s -> inhand s = [] -> u_ok (length (chs s)) q -> (match q with UMove (_ :: _) => False | _ => True end) -> inv r (at_u s q).
Proof.
  intros r s q [L P C K UU H F O] IH Q M. constructor; cbn; auto. rewrite IH in P. unfold inhand. cbn. destruct q as [| |[|? ?]| | |]; cbn in *; auto; contradiction.
Qed.
Lemma inv_each : forall r s s', inv r s -> each s = Some s' -> inv r s'.
Proof.
  intros r s s' V E. pose proof V as [L P C K UU H F O]. unfold each in E. destruct (u s) as [| |[|x l]| | |] eqn:X; cbn [u_ok] in UU.
  - injection E as <-. apply inv_u; cbn; auto. unfold inhand. now rewrite X.
  - injection E as <-. unfold inhand in P. rewrite X in P. constructor; cbn [rs held c chs u got dead]; auto.
    + unfold inhand, sent in *. cbn [rs held c chs u got dead]. rewrite map_app, concat_app. cbn [map concat buf app]. rewrite app_nil_r. exact P.
    + intros i p N. specialize (K _ _ N). rewrite app_length. destruct p; cbn in *; lia.
    + rewrite app_length. cbn. lia.
  - injection E as <-. apply inv_u; cbn; auto. unfold inhand. now rewrite X.
  - unfold send in E. destruct (nth_error (chs s) (cur s)) as [ch|] eqn:Y; [|discriminate]. destruct (closed ch); [injection E as <-; now apply inv_die|].
    destruct (total s <=? length (buf ch)); [discriminate|]. injection E as <-. unfold inhand in P. rewrite X in P.
    constructor; cbn [at_u with_chs rs held c chs u got dead]; rewrite ?put_length; auto.
    + unfold sent, inhand in *. cbn [at_u with_chs rs held c chs u got dead]. rewrite <- (concat_put _ _ _ x false Y). rewrite <- P. cbn [app].
      rewrite <- !Permutation_middle. reflexivity.
    + intros Z. apply H. intros Z'. rewrite Z' in Y. unfold cur in Y. rewrite Z' in Y. discriminate.
  - injection E as <-. apply inv_u; cbn; auto; [unfold inhand; now rewrite X| |]; destruct (c s =? total s); cbn; auto.
  - unfold shut in E. destruct (nth_error (chs s) (cur s)) as [ch|] eqn:Y; [|discriminate]. destruct (closed ch); [injection E as <-; now apply inv_die|]. injection E as <-.
    unfold inhand in P. rewrite X in P. constructor; cbn [at_u with_chs rs held c chs u got dead]; rewrite ?put_length; auto.
    + unfold sent, inhand in *. cbn [at_u with_chs rs held c chs u got dead]. rewrite (concat_put_same _ _ _ true Y). exact P.
    + intros Z. apply H. intros Z'. rewrite Z' in Y. unfold cur in Y. rewrite Z' in Y. discriminate.
  - injection E as <-. unfold inhand in P. rewrite X in P. constructor; cbn; auto.
Qed.
Lemma inv_step : forall r s w s', inv r s -> step s w = Some s' -> inv r s'.
Proof. intros r s w s' V E. unfold step in E. destruct (dead s); [discriminate|]. destruct w; eauto using inv_respond, inv_each. Qed.
Lemma inv_run : forall r ws s s', inv r s -> run s ws = Some s' -> inv r s'.
Proof.
  intros r. induction ws as [|w ws IH]; intros s s' V E; cbn in E; [now injection E as <-|].
  destruct (step s w) as [s1|] eqn:X; [|discriminate]. eauto using inv_step.
Qed.
Lemma inv_reachable : forall r s, reachable r s -> inv r s.
Proof. intros r s [ws E]. eapply inv_run; eauto using inv_start. Qed.

(** ** a channel that is given up *)
Definition given_up (k : nat) (s : st) : Prop :=
  S k < length (chs s) /\ ~ is_closed s k /\ forall i, nth_error (rs s) i <> Some (RShut k).
Lemma given_up_put : forall k s x ch f b, nth_error (chs s) x = Some ch -> closed ch = false -> (f = true -> x <> k) -> ~ is_closed s k ->
  ~ is_closed (with_chs s (put (chs s) x (mkChan b f))) k.
Proof.
  intros k s x ch f b X CL NE NC (ch' & Y & Z). cbn in Y. destruct (put_cases _ _ _ _ _ _ X Y) as [[-> ->]|[N Y']].
  - cbn in Z. now apply NE.
  - apply NC. exists ch'. auto.
Qed.
Lemma given_up_step : forall k s w s', given_up k s -> step s w = Some s' -> given_up k s'.
Proof.
  intros k s w s' (G1 & G2 & G3) E. unfold step in E. destruct (dead s); [discriminate|]. destruct w as [i|].
  - unfold respond in E. destruct (nth_error (rs s) i) as [p|] eqn:N; [|discriminate].
    assert (PK : forall q, (match q with RShut m => m <> k | _ => True end) -> forall j, nth_error (put (rs s) i q) j <> Some (RShut k)).
    { intros q Q j Y. destruct (put_cases _ _ _ _ _ _ N Y) as [[_ <-]|[_ Y']]; [congruence|exact (G3 _ Y')]. }
    destruct p as [| | |m| | |m|]; try discriminate.
    + injection E as <-. repeat split; cbn; auto. apply PK. now destruct (chs s).
    + destruct (locked s); [discriminate|]. destruct (chs s) as [|ch l] eqn:X; [cbn in G1; lia|]. injection E as <-. repeat split; cbn; rewrite ?X; auto; try (now apply PK).
    + injection E as <-. repeat split; cbn; auto; try (now apply PK).
    + unfold send in E. destruct (nth_error (chs s) m) as [ch|] eqn:X; [|discriminate]. destruct (closed ch) eqn:CL; [injection E as <-; repeat split; auto|].
      destruct (total s <=? length (buf ch)); [discriminate|]. injection E as <-. split; [cbn; now rewrite put_length|]. split; [|now apply PK].
      apply (given_up_put k s m ch); auto. discriminate.
    + remember (S (c s) =? total s) as t. injection E as <-. repeat split; cbn; auto. apply PK. now destruct t.
    + injection E as <-. repeat split; cbn; auto. apply PK. unfold cur. lia.
    + unfold shut in E. destruct (nth_error (chs s) m) as [ch|] eqn:X; [|discriminate]. destruct (closed ch) eqn:CL; [injection E as <-; repeat split; auto|].
      injection E as <-. split; [cbn; now rewrite put_length|]. split; [|now apply PK].
      apply (given_up_put k s m ch); auto. intros _ ->. exact (G3 _ N).
  - unfold each in E. destruct (u s) as [| |[|x l]| | |] eqn:X.
    + injection E as <-. repeat split; auto.
    + injection E as <-. cbn. split; [cbn; rewrite app_length; lia|]. split; [|exact G3]. intros (ch & Y & Z). cbn in Y.
      rewrite nth_error_app1 in Y by lia. apply G2. exists ch. auto.
    + injection E as <-. repeat split; auto.
    + unfold send in E. destruct (nth_error (chs s) (cur s)) as [ch|] eqn:Y; [|discriminate]. destruct (closed ch) eqn:CL; [injection E as <-; repeat split; auto|].
      destruct (total s <=? length (buf ch)); [discriminate|]. injection E as <-. split; [cbn; now rewrite put_length|]. split; [|exact G3].
      apply (given_up_put k s (cur s) ch); auto. discriminate.
    + injection E as <-. repeat split; auto.
    + unfold shut in E. destruct (nth_error (chs s) (cur s)) as [ch|] eqn:Y; [|discriminate]. destruct (closed ch) eqn:CL; [injection E as <-; repeat split; auto|].
      injection E as <-. split; [cbn; now rewrite put_length|]. split; [|exact G3].
      apply (given_up_put k s (cur s) ch); auto. intros _ EE. unfold cur in EE. lia.
    + injection E as <-. repeat split; auto.
Qed.
Lemma given_up_run : forall k ws s s', given_up k s -> run s ws = Some s' -> given_up k s'.
Proof.
  intros k. induction ws as [|w ws IH]; intros s s' V E; cbn in E; [now injection E as <-|].
  destruct (step s w) as [s1|] eqn:X; [|discriminate]. eauto using given_up_step.
Qed.

(** ** calls that do not overlap *)
Definition open_now (s : st) : Prop := exists ch, nth_error (chs s) (cur s) = Some ch /\ closed ch = false.
Record calm (s : st) : Prop := mkCalm {
  k_live : dead s = false;
  k_apart : apart s;
  k_new : match u s with UMove _ | UCheck | UShut => open_now s | _ => True end;
  k_end : is_closed s (cur s) -> c s = length (rs s);
  k_cur : forall i k, nth_error (rs s) i = Some (RSend k) \/ nth_error (rs s) i = Some (RShut k) -> k = cur s;
  k_last : forall i p, nth_error (rs s) i = Some p -> closer p = true -> open_now s;
  k_shut : match u s with UShut => c s = length (rs s) | _ => True end;
  k_done : match u s with UOut | UFree => chs s <> [] -> c s = length (rs s) -> (forall i p, nth_error (rs s) i = Some p -> closer p = false) -> is_closed s (cur s) | _ => True end }.
Lemma calm_start : forall r, calm (start r).
Proof.
  intros r. assert (N : forall i p, nth_error (repeat RIdle r) i = Some p -> p = RIdle) by (intros i p H; now apply nth_error_In, repeat_spec in H).
  constructor; cbn; auto.
  - now left.
  - intros (ch & X & _). discriminate.
  - intros i k [X|X]; apply N in X; discriminate.
  - intros i p X Y. apply N in X. subst. discriminate.
  - congruence.
Qed.
Lemma not_both : forall s, open_now s -> is_closed s (cur s) -> False.
Proof. intros s (a & X & Y) (b & Z & W). congruence. Qed.
Lemma open_or_closed : forall s, chs s <> [] -> open_now s \/ is_closed s (cur s).
Proof.
  intros s H. unfold open_now, is_closed. destruct (nth_error (chs s) (cur s)) as [ch|] eqn:X.
  - destruct (closed ch) eqn:Y; [right|left]; eauto.
  - apply nth_error_None in X. unfold cur in X. destruct (chs s); [congruence|cbn in X; lia].
Qed.
Lemma cur_at_r : forall s i q, cur (at_r s i q) = cur s.
Proof. reflexivity. Qed.
Lemma cur_at_u : forall s q, cur (at_u s q) = cur s.
Proof. reflexivity. Qed.
Lemma cur_put : forall s k ch, cur (with_chs s (put (chs s) k ch)) = cur s.
Proof. intros. unfold cur. cbn. now rewrite put_length. Qed.
Lemma calm_move : forall s i p q, calm s -> u s = UOut -> nth_error (rs s) i = Some p -> closer p = closer q ->
  (forall k, q = RSend k \/ q = RShut k -> k = cur s) -> calm (at_r s i q).
Proof.
  intros s i p q [L A N E C K SH D] X Y Z W. rewrite X in *. constructor; cbn [at_r dead u c rs chs]; rewrite ?put_length; auto; try rewrite X; auto.
  - left. exact X.
  - intros j k H. change (cur (at_r s i q)) with (cur s). assert (H' : exists p', nth_error (put (rs s) i q) j = Some p' /\ (p' = RSend k \/ p' = RShut k)) by (destruct H; eauto).
    destruct H' as (p' & H1 & H2). destruct (put_cases _ _ _ _ _ _ Y H1) as [[_ ->]|[_ H3]]; [auto|]. apply (C j). destruct H2 as [->| ->]; auto.
  - intros j p' H1 H2. destruct (put_cases _ _ _ _ _ _ Y H1) as [[_ ->]|[_ H3]]; [|exact (K _ _ H3 H2)]. apply (K _ _ Y). congruence.
  - intros H1 H2 H3. apply (D H1 H2). intros j p' H4. destruct (Nat.eq_dec j i) as [->|NE].
    + specialize (H3 i q (put_same _ _ _ _ Y)). congruence.
    + apply (H3 j). now rewrite put_other by congruence.
Qed.
Lemma respond_out : forall s i s', respond s i = Some s' -> apart s -> apart s' -> dead s' = false -> u s = UOut.
Proof.
  intros s i s' E [A|A] B D; [exact A|]. rewrite Forall_forall in A. unfold respond in E. destruct (nth_error (rs s) i) as [p|] eqn:N; [|discriminate].
  destruct (A _ (nth_error_In _ _ N)) as [->| ->]; [|discriminate]. injection E as <-. destruct B as [B|B]; [exact B|]. exfalso.
  rewrite Forall_forall in B. specialize (B _ (nth_error_In _ _ (put_same _ _ _ _ N))). destruct (chs s); destruct B; discriminate.
Qed.
Lemma calm_respond : forall r s i s', inv r s -> calm s -> respond s i = Some s' -> apart s' -> calm s' /\ forall k, k < cur s -> nth_error (chs s') k = nth_error (chs s) k.
Proof.
  intros r s i s' V M E B. pose proof V as [L P C K UU H F O]. pose proof M as [ML MA MN ME MC MK MS MD].
  assert (D' : dead s' = false \/ dead s' = true) by (destruct (dead s'); auto).
  assert (X : u s = UOut).
  { destruct MA as [A|A]; [exact A|]. rewrite Forall_forall in A. unfold respond in E. destruct (nth_error (rs s) i) as [p|] eqn:N; [|discriminate].
    destruct (A _ (nth_error_In _ _ N)) as [->| ->]; [|discriminate]. injection E as <-. destruct B as [B|B]; [exact B|]. exfalso.
    rewrite Forall_forall in B. specialize (B _ (nth_error_In _ _ (put_same _ _ _ _ N))). destruct (chs s); destruct B; discriminate. }
  unfold respond in E. destruct (nth_error (rs s) i) as [p|] eqn:N; [|discriminate]. pose proof (K _ _ N) as Q.
  assert (LT : counted p = false -> c s < length (rs s)) by (intros Z; rewrite C; eapply cntd_lt; eauto).
  rewrite X in MD, MN, MS. destruct p as [| | |k| | |k|]; try discriminate; cbn [pc_ok counted] in *.
  - injection E as <-. split; [|reflexivity]. eapply calm_move; eauto; [now destruct (chs s)|]. intros k [Z|Z]; destruct (chs s); discriminate.
  - unfold locked in E. rewrite X in E. destruct (chs s) as [|ch l] eqn:Y; injection E as <-.
    + split; [|cbn; auto]. constructor; cbn [at_r held c chs rs u got dead]; rewrite ?X; auto.
      * intros (ch & Z & _). discriminate.
      * intros j k Z. exfalso. assert (Z' : exists p', nth_error (put (rs s) i RDone) j = Some p' /\ (p' = RSend k \/ p' = RShut k)) by (destruct Z; eauto).
        destruct Z' as (p' & Z1 & Z2). destruct (put_cases _ _ _ _ _ _ N Z1) as [[_ ->]|[_ Z3]]; [destruct Z2; discriminate|].
        specialize (K _ _ Z3). destruct Z2 as [->| ->]; cbn in K; lia.
      * intros j p' Z1 Z2. destruct (put_cases _ _ _ _ _ _ N Z1) as [[_ ->]|[_ Z3]]; [discriminate|]. specialize (LT eq_refl). rewrite (F _ _ Z3 Z2) in LT. lia.
      * congruence.
    + split; [|cbn; now rewrite Y]. eapply calm_move; eauto. intros k [Z|Z]; discriminate.
  - injection E as <-. split; [|reflexivity]. eapply calm_move; eauto. intros k [Z|Z]; congruence.
  - unfold send in E. destruct (nth_error (chs s) k) as [ch|] eqn:Y; [|discriminate]. pose proof (MC i k (or_introl N)) as KC.
    specialize (LT eq_refl). destruct (closed ch) eqn:CL.
    { exfalso. assert (Z : is_closed s (cur s)) by (exists ch; rewrite <- KC; auto). apply ME in Z. lia. }
    destruct (total s <=? length (buf ch)); [discriminate|]. injection E as <-. cbn [at_r with_chs chs].
    split; [|intros m Z; apply put_other; lia].
    assert (OP : open_now (at_r (with_chs s (put (chs s) k (mkChan (buf ch ++ [i]) false))) i RAdd)).
    { eexists. split; [rewrite cur_at_r, cur_put; cbn; rewrite <- KC; eapply put_same; eauto|reflexivity]. }
    constructor; cbn [at_r with_chs held c chs rs u got dead]; rewrite ?X, ?put_length; auto.
    + intros Z. destruct (not_both _ OP Z).
    + intros j m Z. rewrite cur_at_r. rewrite cur_put.
      assert (Z' : exists p', nth_error (put (rs s) i RAdd) j = Some p' /\ (p' = RSend m \/ p' = RShut m)) by (destruct Z; eauto).
      destruct Z' as (p' & Z1 & Z2). destruct (put_cases _ _ _ _ _ _ N Z1) as [[_ ->]|[_ Z3]]; [destruct Z2; discriminate|].
      apply (MC j). destruct Z2 as [->| ->]; auto.
    + lia.
  - remember (S (c s) =? total s) as t eqn:T. injection E as <-. split; [|reflexivity]. specialize (LT eq_refl).
    assert (NC : chs s <> []) by (intros Z; rewrite Z in Q; cbn in Q; lia).
    assert (OP : open_now s) by (destruct (open_or_closed s NC) as [Z|Z]; [exact Z|apply ME in Z; lia]).
    constructor; cbn [at_r held c chs rs u got dead]; rewrite ?X, ?put_length; auto.
    + now left.
    + intros Z. destruct (not_both s OP Z).
    + intros j m Z. change (cur _) with (cur s).
      assert (Z' : exists p', nth_error (put (rs s) i (if t then RClose else RDone)) j = Some p' /\ (p' = RSend m \/ p' = RShut m)) by (destruct Z; eauto).
      destruct Z' as (p' & Z1 & Z2). destruct (put_cases _ _ _ _ _ _ N Z1) as [[_ ->]|[_ Z3]]; [destruct t; destruct Z2; discriminate|].
      apply (MC j). destruct Z2 as [->| ->]; auto.
    + intros _ Z1 Z2. exfalso. specialize (Z2 i _ (put_same _ _ _ _ N)). unfold total in T. rewrite Z1, Nat.eqb_refl in T. subst t. discriminate.
  - injection E as <-. split; [|reflexivity]. eapply calm_move; eauto. intros k [Z|Z]; congruence.
  - unfold shut in E. destruct (nth_error (chs s) k) as [ch|] eqn:Y; [|discriminate]. pose proof (MC i k (or_intror N)) as KC.
    pose proof (MK _ _ N eq_refl) as OP. pose proof (F _ _ N eq_refl) as FU.
    assert (CL : closed ch = false) by (destruct OP as (ch' & Z1 & Z2); rewrite <- KC in Z1; congruence). rewrite CL in E.
    injection E as <-. cbn [at_r with_chs chs]. split; [|intros m Z; apply put_other; lia].
    constructor; cbn [at_r with_chs held c chs rs u got dead]; rewrite ?X, ?put_length; auto.
    + intros _. lia.
    + intros j m Z. rewrite cur_at_r. rewrite cur_put.
      assert (Z' : exists p', nth_error (put (rs s) i RDone) j = Some p' /\ (p' = RSend m \/ p' = RShut m)) by (destruct Z; eauto).
      destruct Z' as (p' & Z1 & Z2). destruct (put_cases _ _ _ _ _ _ N Z1) as [[_ ->]|[_ Z3]]; [destruct Z2; discriminate|].
      apply (MC j). destruct Z2 as [->| ->]; auto.
    + intros j p' Z1 Z2. destruct (put_cases _ _ _ _ _ _ N Z1) as [[_ ->]|[NE Z3]]; [discriminate|]. destruct NE. exact (O _ _ _ _ Z3 N Z2 eq_refl).
    + intros _ _ _. eexists. split; [rewrite cur_at_r, cur_put; cbn; rewrite <- KC; eapply put_same; eauto|reflexivity].
Qed.
Lemma resting_facts : forall s, Forall resting (rs s) -> (forall i k, nth_error (rs s) i <> Some (RSend k) /\ nth_error (rs s) i <> Some (RShut k)) /\
  (forall i p, nth_error (rs s) i = Some p -> closer p = false).
Proof.
  intros s A. rewrite Forall_forall in A. split.
  - intros i k. split; intros X; destruct (A _ (nth_error_In _ _ X)); discriminate.
  - intros i p X. destruct (A _ (nth_error_In _ _ X)) as [->| ->]; reflexivity.
Qed.
Lemma calm_each : forall r s s', inv r s -> calm s -> each s = Some s' -> apart s' -> calm s' /\ forall k, k < cur s -> nth_error (chs s') k = nth_error (chs s) k.
Proof.
  intros r s s' V M E B. pose proof V as [L P C K UU H F O]. pose proof M as [ML MA MN ME MC MK MS MD].
  assert (RR : Forall resting (rs s')) by (destruct B as [B|B]; [|exact B];
    destruct MA as [A|A]; [unfold each in E; rewrite A in E; injection E as <-; discriminate|];
    unfold each, send, shut in E; destruct (u s) as [| |[|x l]| | |]; try destruct (nth_error (chs s) (cur s)) as [ch|]; try discriminate;
    try destruct (closed ch); try destruct (total s <=? length (buf ch)); try discriminate; injection E as <-; exact A).
  assert (RS : rs s' = rs s) by (unfold each, send, shut in E; destruct (u s) as [| |[|x l]| | |]; try destruct (nth_error (chs s) (cur s)) as [ch|]; try discriminate;
    try destruct (closed ch); try destruct (total s <=? length (buf ch)); try discriminate; injection E as <-; reflexivity).
  destruct (resting_facts s' RR) as [R1 R2].
  assert (G1 : forall i k, nth_error (rs s') i = Some (RSend k) \/ nth_error (rs s') i = Some (RShut k) -> k = cur s') by (intros i k [X|X]; exfalso; destruct (R1 i k); contradiction).
  assert (G2 : forall i p, nth_error (rs s') i = Some p -> closer p = true -> open_now s') by (intros i p X Y; rewrite (R2 _ _ X) in Y; discriminate).
  clear R1 RR. unfold each in E. destruct (u s) as [| |[|x l]| | |] eqn:X; cbn [u_ok] in UU.
  - injection E as <-. split; [|reflexivity]. constructor; auto; cbn; auto.
  - injection E as <-. cbn [chs]. split; [|intros k Z; apply nth_error_app1; unfold cur in Z; lia].
    match goal with |- calm ?z => assert (OP : open_now z) end.
    { exists (mkChan [] false). split; [|reflexivity]. unfold cur. cbn. rewrite app_length. cbn. replace (_ + 1 - 1) with (length (chs s)) by lia.
      rewrite nth_error_app2, Nat.sub_diag by lia. reflexivity. }
    constructor; auto; cbn [u]; auto. intros Z. destruct (not_both _ OP Z).
  - injection E as <-. split; [|reflexivity]. constructor; auto; cbn; auto.
  - unfold send in E. destruct MN as (ch & Y & CL). rewrite Y, CL in E. destruct (total s <=? length (buf ch)); [discriminate|]. injection E as <-.
    cbn [at_u with_chs chs]. split; [|intros k Z; apply put_other; lia].
    match goal with |- calm ?z => assert (OP : open_now z) end.
    { eexists. split; [rewrite cur_at_u, cur_put; cbn; eapply put_same; eauto|reflexivity]. }
    constructor; auto; cbn [u at_u with_chs]; auto. intros Z. destruct (not_both _ OP Z).
  - injection E as <-. split; [|reflexivity]. destruct (c s =? total s) eqn:T; constructor; auto; cbn; auto.
    + apply Nat.eqb_eq in T. exact T.
    + intros _ Z. apply Nat.eqb_neq in T. contradiction.
  - unfold shut in E. destruct MN as (ch & Y & CL). rewrite Y, CL in E. injection E as <-.
    cbn [at_u with_chs chs]. split; [|intros k Z; apply put_other; lia].
    constructor; auto; cbn [u at_u with_chs]; auto.
    intros _ _ _. eexists. split; [rewrite cur_at_u, cur_put; cbn; eapply put_same; eauto|reflexivity].
  - injection E as <-. split; [|reflexivity]. constructor; auto; cbn; auto.
Qed.
Lemma calm_run : forall r ws s s', inv r s -> calm s -> tame s ws -> run s ws = Some s' ->
  inv r s' /\ calm s' /\ (forall k, k < cur s -> nth_error (chs s') k = nth_error (chs s) k) /\ length (chs s) <= length (chs s').
Proof.
  intros r. induction ws as [|w ws IH]; intros s s' V M T E; cbn in E, T; [injection E as <-; auto|].
  destruct (step s w) as [s1|] eqn:X; [|discriminate]. destruct T as [T1 T2]. pose proof (inv_step _ _ _ _ V X) as V1.
  assert (LE : length (chs s) <= length (chs s1)).
  { unfold step in X. destruct (dead s); [discriminate|]. destruct w as [i|].
    - unfold respond, send, shut in X. destruct (nth_error (rs s) i) as [[| | |k| | |k|]|]; try discriminate; try (injection X as <-; cbn; lia).
      + destruct (locked s); [discriminate|]. destruct (chs s) eqn:Z; injection X as <-; cbn; rewrite ?Z; cbn; lia.
      + destruct (nth_error (chs s) k) as [ch|]; [|discriminate]. destruct (closed ch); [injection X as <-; cbn; lia|]. destruct (total s <=? length (buf ch)); [discriminate|]. injection X as <-; cbn; rewrite put_length; lia.
      + destruct (nth_error (chs s) k) as [ch|]; [|discriminate]. destruct (closed ch); injection X as <-; cbn; rewrite ?put_length; lia.
    - unfold each, send, shut in X. destruct (u s) as [| |[|x l]| | |]; try (injection X as <-; cbn; rewrite ?app_length; lia).
      + destruct (nth_error (chs s) (cur s)) as [ch|]; [|discriminate]. destruct (closed ch); [injection X as <-; cbn; lia|]. destruct (total s <=? length (buf ch)); [discriminate|]. injection X as <-; cbn; rewrite put_length; lia.
      + destruct (nth_error (chs s) (cur s)) as [ch|]; [|discriminate]. destruct (closed ch); injection X as <-; cbn; rewrite ?put_length; lia. }
  assert (Y : calm s1 /\ forall k, k < cur s -> nth_error (chs s1) k = nth_error (chs s) k).
  { unfold step in X. destruct (dead s); [discriminate|]. destruct w; eauto using calm_respond, calm_each. }
  destruct Y as [M1 Y]. destruct (IH _ _ V1 M1 T2 E) as (A1 & A2 & A3 & A4). repeat split; try apply A1; try apply A2; try lia.
  intros k Z. rewrite A3; [now apply Y|]. unfold cur in *. lia.
Qed.
