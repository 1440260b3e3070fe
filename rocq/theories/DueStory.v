(** Requests with timeouts: where answers come from, and what becomes of a deadline. *)
From Coq Require Import ZArith List Bool Arith Lia Permutation.
Import ListNotations.
From Verif Require Import RequestModel.
From Verif Require Import TimerModel TimerSpec TimerInv TimerProofs TimerProps DueModel DueSpec DueProofs DueTrace.
Open Scope Z_scope.

Lemma split_app {A} (tr o a : list A) v b : tr ++ o = a ++ v :: b ->
  (exists b', tr = a ++ v :: b' /\ b = b' ++ o) \/ (exists a', a = tr ++ a' /\ o = a' ++ v :: b).
Proof.
  revert a. induction tr as [|t tr IH]; intros a E; [right; exists a; auto|]. destruct a as [|y a]; cbn in E.
  - injection E as <- <-. left. exists tr. auto.
  - injection E as <- E. destruct (IH a E) as [(b' & -> & ->)|(a' & -> & ->)]; [left; exists b'|right; exists a']; auto.
Qed.
Lemma pop_fired h n h' x e m : hstep h (Pop n) = Some (h', Fired x e m) -> e < m.
Proof.
  cbn. destruct (_ =? _); [discriminate|]. destruct (get h (top h)) as [t|]; [|discriminate]. cbn. destruct (Z.leb_spec n (ie t)); [discriminate|].
  destruct (remove h (top h)); [|discriminate]. cbn. destruct (ix t); [|discriminate]. intro Q. injection Q as _ _ <- <-. assumption.
Qed.

Section Due.
Variable home : nat -> nat.
Variable blocks : nat -> bool.
Notation step := (step home blocks).
Notation run := (run home blocks).
Notation eff := (eff home blocks).
Notation part := (part home).

Definition coming (p : pc) : option (nat * Z) := match p with Lk x a | Ck x a => Some (x, code_of a) | Pr x c | Wk x c => Some (x, c) | _ => None end.
(** who gave the answer *)
Definition src (tr : list obs) (x : nat) (c : Z) : Prop :=
  (exists k, In (ORespond k x c) tr) \/ c = RcTimeout /\ exists e n, In (OTimer (Fired x e n)) tr.
Definition at_T (p : pc) (x : nat) (d : Z) : Prop := exists b, p = T1 x d b \/ (p = T2 x d b \/ p = T3 x d b) /\ 0 < d.

Record story (es : list ev) (tr : list obs) (s : sys) : Prop := mkSt {
  y_live : forall o x e, In (x, e) (live_cells (hp s o)) -> deadline tr x e;
  y_fired : forall a x e n b, tr = a ++ OTimer (Fired x e n) :: b -> e < n /\ deadline a x e;
  y_come : forall g x c, coming (at_ s g) = Some (x, c) -> src tr x c;
  y_del : forall a g x c b, tr = a ++ ODeliver g x c :: b -> src a x c;
  y_set : forall g x, setter (at_ s g) = Some x -> exists k d, g = U k /\ at_T (at_ s g) x d /\ In (OSetTimeout k x d) tr;
  y_armed : forall a x e b, tr = a ++ OTimer (Armed x e) :: b -> exists k d clock, 0 < d /\ e = clock + d /\ In (OSetTimeout k x d) a /\ In (EGo (U k) clock) es }.

Lemma src_app a b x c : src a x c -> src (a ++ b) x c.
Proof. intros [(k & H)|[Q (e & n & H)]]; [left; exists k|right; split; [exact Q|]; exists e, n]; apply in_app_iff; now left. Qed.

(** what a step adds *)
Lemma story_step es tr s e o s' : story es tr s ->
  (forall p x f, In (x, f) (live_cells (hp s' p)) -> In (x, f) (live_cells (hp s p)) \/ deadline o x f) ->
  (forall x f n, In (OTimer (Fired x f n)) o -> o = [OTimer (Fired x f n)] /\ f < n /\ deadline tr x f) ->
  (forall g x c, coming (at_ s' g) = Some (x, c) -> coming (at_ s g) = Some (x, c) \/ src o x c) ->
  (forall g x c, In (ODeliver g x c) o -> o = [ODeliver g x c] /\ coming (at_ s g) = Some (x, c)) ->
  (forall g x, setter (at_ s' g) = Some x -> exists k d, g = U k /\ at_T (at_ s' g) x d /\ (In (OSetTimeout k x d) o \/ setter (at_ s g) = Some x /\ forall d', at_T (at_ s g) x d' -> d' = d)) ->
  (forall x f, deadline o x f -> exists k d clock b, f = clock + d /\ at_ s (U k) = T3 x d b /\ e = EGo (U k) clock) ->
  story (es ++ [e]) (tr ++ o) s'.
Proof.
  intros [A B C D E F] HL HF HC HD HS HA. split.
  - intros p x f I. destruct (HL _ _ _ I) as [J|J]; apply deadline_app; [left; exact (A _ _ _ J)|now right].
  - intros a x f n b Q. destruct (split_app _ _ _ _ _ Q) as [(b' & Q1 & _)|(a' & -> & Q1)]; [exact (B _ _ _ _ _ Q1)|].
    destruct (HF x f n) as (Q2 & Q3 & Q4); [rewrite Q1; apply in_elt|]. rewrite Q2 in Q1. destruct a' as [|? [|? ?]]; try discriminate. rewrite app_nil_r. auto.
  - intros g x c H. destruct (HC _ _ _ H) as [J|J]; [apply src_app; exact (C _ _ _ J)|]. destruct J as [(k & J)|[J1 (f & n & J)]]; [left; exists k|right; split; [exact J1|]; exists f, n]; apply in_app_iff; now right.
  - intros a g x c b Q. destruct (split_app _ _ _ _ _ Q) as [(b' & Q1 & _)|(a' & -> & Q1)]; [exact (D _ _ _ _ _ Q1)|].
    destruct (HD g x c) as (Q2 & Q3); [rewrite Q1; apply in_elt|]. rewrite Q2 in Q1. destruct a' as [|? [|? ?]]; try discriminate. rewrite app_nil_r. exact (C _ _ _ Q3).
  - intros g x H. destruct (HS _ _ H) as (k & d & -> & T & [J|[J1 J2]]); exists k, d; (split; [reflexivity|]; split; [exact T|]; apply in_app_iff); [now right|left].
    destruct (E _ _ J1) as (k' & d' & Q & T' & J). injection Q as <-. now rewrite <- (J2 _ T').
  - intros a x f b Q. destruct (split_app _ _ _ _ _ Q) as [(b' & Q1 & _)|(a' & -> & Q1)].
    + destruct (F _ _ _ _ Q1) as (k & d & clock & H1 & H2 & H3 & H4). exists k, d, clock. repeat split; trivial. apply in_app_iff; now left.
    + destruct (HA x f) as (k & d & clock & b0 & H1 & H2 & ->); [unfold deadline; rewrite Q1; apply in_elt|]. destruct (E (U k) x) as (k' & d' & Q2 & T' & J); [now rewrite H2|]. injection Q2 as <-. rewrite H2 in T'. destruct T' as (b' & [T'|[[T'|T'] P]]); try discriminate. injection T' as <- <-.
      exists k, d, clock. repeat split; trivial; apply in_app_iff; [now left|right; now left].
Qed.
Lemma at_same s g p : coming p = None \/ coming p = coming (at_ s g) -> forall (o : list obs) g' x c, coming (gupd (at_ s) g p g') = Some (x, c) -> coming (at_ s g') = Some (x, c) \/ src o x c.
Proof. intros H o g' x c. unfold gupd. destruct (geq g' g) eqn:E; [|now left]. apply geq_ok in E. subst. intro Q. left. destruct H; congruence. Qed.
Lemma set_same s g p : setter p = None -> forall (o : list obs) es tr, story es tr s -> forall g' x, setter (gupd (at_ s) g p g') = Some x -> exists k d, g' = U k /\ at_T (gupd (at_ s) g p g') x d /\ (In (OSetTimeout k x d) o \/ setter (at_ s g') = Some x /\ forall d', at_T (at_ s g') x d' -> d' = d).
Proof.
  intros N o es tr Y g' x. unfold gupd. destruct (geq g' g); [congruence|]. intro H. destruct (y_set _ _ _ Y _ _ H) as (k & d & -> & T & _). exists k, d. split; [reflexivity|]. split; [exact T|]. right. split; [exact H|].
  intros d' T'. destruct T as (b & T), T' as (b' & T'). destruct (at_ s (U k)); intuition congruence.
Qed.
Lemma set_kept s g p x d : at_T (at_ s g) x d -> at_T p x d -> forall (o : list obs) es tr, story es tr s -> forall g' y, setter (gupd (at_ s) g p g') = Some y -> exists k d, g' = U k /\ at_T (gupd (at_ s) g p g') y d /\ (In (OSetTimeout k y d) o \/ setter (at_ s g') = Some y /\ forall d', at_T (at_ s g') y d' -> d' = d).
Proof.
  intros T1 T2 o es tr Y g' y. destruct (geq_dec g' g) as [->|N].
  - rewrite gupd_same. intro H. assert (S : setter (at_ s g) = Some y) by (destruct T1 as (b1 & T1), T2 as (b2 & T2); destruct p; cbn in H; intuition try discriminate; destruct (at_ s g); intuition try discriminate; cbn; congruence).
    destruct (y_set _ _ _ Y _ _ S) as (k & d' & -> & T & _). exists k, d. split; [reflexivity|]. assert (y = x). { destruct T1 as (b1 & T1). destruct (at_ s (U k)); cbn in S; intuition try discriminate; congruence. } subst y. split; [exact T2|]. right. split; [exact S|].
    intros d2 T'. destruct T1 as (b & T1), T' as (b' & T'). destruct (at_ s (U k)); intuition congruence.
  - rewrite gupd_other by assumption. intro H. destruct (y_set _ _ _ Y _ _ H) as (k & d' & -> & T & _). exists k, d'. split; [reflexivity|]. split; [exact T|]. right. split; [exact H|].
    intros d2 T'. destruct T as (b & T), T' as (b' & T'). destruct (at_ s (U k)); intuition congruence.
Qed.
Lemma set_begun s k x d b : setter (at_ s (U k)) = None -> forall es tr, story es tr s -> forall g' y, setter (gupd (at_ s) (U k) (T1 x d b) g') = Some y -> exists k' d', g' = U k' /\ at_T (gupd (at_ s) (U k) (T1 x d b) g') y d' /\ (In (OSetTimeout k' y d') [OSetTimeout k x d] \/ setter (at_ s g') = Some y /\ forall d2, at_T (at_ s g') y d2 -> d2 = d').
Proof.
  intros N es tr Y g' y. destruct (geq_dec g' (U k)) as [->|NE].
  - rewrite gupd_same. intro H. injection H as <-. exists k, d. split; [reflexivity|]. split; [exists b; now left|]. left. now left.
  - rewrite gupd_other by assumption. intro H. destruct (y_set _ _ _ Y _ _ H) as (k' & d' & -> & T & _). exists k', d'. split; [reflexivity|]. split; [exact T|]. right. split; [exact H|].
    intros d2 T'. destruct T as (b2 & T), T' as (b' & T'). destruct (at_ s (U k')); intuition congruence.
Qed.
Lemma live_fired o ops h t h' c v : hrun hinit ops = Some (h, t) -> hstep h c = Some (h', v) -> forall x e, In (x, e) (live_cells h') -> In (x, e) (live_cells h) \/ deadline (OTimer v :: o) x e.
Proof.
  intros R S x e I. pose proof (C38_only_freed_cells_reused _ _ _ _ _ _ R S) as C. destruct v as [y f|y|y f n|n].
  - apply (Permutation_in _ C) in I. destruct I as [I|I]; [right; left; congruence|now left].
  - left. destruct C as [C|(f & C)]; [now rewrite <- C|]. apply (Permutation_in _ (Permutation_sym C)). now right.
  - left. apply (Permutation_in _ (Permutation_sym C)). now right.
  - left. now rewrite <- C.
Qed.
Lemma live_upd o0 tr s o p h c v : heaps_ok home tr s -> hstep (hp s p) c = Some (h, v) -> forall q x e, In (x, e) (live_cells (fupd (hp s) p h q)) -> In (x, e) (live_cells (hp s q)) \/ deadline (OTimer v :: o) x e \/ o0.
Proof.
  intros H S q x e. unfold fupd. destruct (Nat.eqb_spec q p) as [->|]; [|auto]. intro I. destruct (h_run _ _ _ H p) as (ops & R). destruct (live_fired o _ _ _ _ _ _ R S x e I); auto.
Qed.
Ltac nothing := cbn; intros; repeat match goal with g : gor |- _ => destruct g end; cbn in *; intuition discriminate.
Ltac plain H Y := match type of Y with story _ _ ?s => eapply story_step; [exact Y|now left|nothing|apply (at_same s); first [now left|right; now rewrite H]|nothing|eapply (set_same s); [reflexivity|exact Y]|nothing] end.
Lemma story_eff es tr s e o s' : ctl s -> heaps_ok home tr s -> story es tr s -> eff s e o s' -> story (es ++ [e]) (tr ++ o) s'.
Proof.
  intros C K Y E.
  assert (KEEP : forall x g, setter (at_ s g) = Some x -> exists k d, g = U k /\ at_T (at_ s g) x d /\ (In (OSetTimeout k x d) o \/ setter (at_ s g) = Some x /\ forall d', at_T (at_ s g) x d' -> d' = d)).
  { intros x g H. destruct (y_set _ _ _ Y _ _ H) as (k & d & -> & T & _). exists k, d. split; [reflexivity|]. split; [exact T|]. right. split; [exact H|]. intros d' T'. destruct T as (b & T), T' as (b' & T'). destruct (at_ s (U k)); intuition congruence. }
  destruct E.
  - eapply story_step; [exact Y|now left|nothing|now left|nothing|intros; now apply KEEP|nothing].
  - eapply story_step; [exact Y|now left|nothing|now left|nothing|intros; now apply KEEP|nothing].
  - plain H Y.
  - eapply story_step; [exact Y|now left|nothing|apply (at_same s); now left|nothing|eapply (set_begun s); [now rewrite H|exact Y]|nothing].
  - eapply story_step; [exact Y|now left|nothing| |nothing|eapply (set_same s); [reflexivity|exact Y]|nothing].
    intros g y c. cbn [at_ move]. unfold gupd. destruct (geq g (U k)); [|now left]. intro Q. injection Q as <- <-. right. left. exists k. now left.
  - eapply story_step; [exact Y|now left|nothing|now left|nothing|intros; now apply KEEP|nothing].
  - eapply story_step; [exact Y|now left|nothing|now left|nothing|intros; now apply KEEP|nothing].
  - plain H Y.
  - eapply story_step; [exact Y| | | |nothing|eapply (set_same s); [reflexivity|exact Y]|nothing].
    + intros p y f I. destruct (live_upd False _ _ [] _ _ _ _ K H0 p y f I) as [J|[J|[]]]; auto.
    + intros y f n [Q|[]]. injection Q as <- <- <-. split; [reflexivity|]. split; [eapply pop_fired; eassumption|]. destruct (h_run _ _ _ K o) as (ops & R). pose proof (C38_only_freed_cells_reused _ _ _ _ _ _ R H0) as P.
      apply (y_live _ _ _ Y o). apply (Permutation_in _ (Permutation_sym P)). now left.
    + intros g y c. cbn [at_ move]. unfold gupd. destruct (geq g (L o)); [|now left]. intro Q. injection Q as <- <-. right. right. split; [reflexivity|]. exists e, now. now left.
  - destruct (loop_not s g C) as (k & ->); [right; now rewrite H|]. eapply story_step; [exact Y|now left|nothing|apply (at_same s); now left|nothing|eapply (set_begun s); [now rewrite H|exact Y]|nothing].
  - plain H Y.
  - plain H Y.
  - plain H Y.
  - eapply story_step; [exact Y|now left|nothing|apply (at_same s); now left|nothing| |nothing]. eapply (set_kept s); [exists b; left; exact H|exists b; right; split; [now left|assumption]|exact Y].
  - destruct b; plain H Y.
  - assert (P : 0 < d). { destruct (y_set _ _ _ Y g x) as (k & d' & -> & T & _); [now rewrite H|]. rewrite H in T. destruct T as (b' & [T|[[T|T] P]]); try discriminate. injection T as <- <-. exact P. }
    eapply story_step; [exact Y|now left|nothing|apply (at_same s); now left|nothing| |nothing]. eapply (set_kept s); [exists b; right; split; [left; exact H|exact P]|exists b; right; split; [now right|exact P]|exact Y].
  - destruct (loop_not s g C) as (k & ->); [left; rewrite H; discriminate|]. eapply story_step; [exact Y| |nothing| |nothing| |].
    + intros p y f I. destruct (live_upd False _ _ (lbl (U k) (fun k => [OTimeoutSet k x])) _ _ _ _ K H0 p y f I) as [J|[J|[]]]; auto.
    + apply (at_same s). left. now destruct b.
    + eapply (set_same s); [now destruct b|exact Y].
    + intros y f [Q|[Q|[]]]; [|discriminate]. injection Q as <- <-. exists k, d, now, b. auto.
  - plain H Y.
  - plain H Y.
  - plain H Y.
  - plain H Y.
  - plain H Y.
  - plain H Y.
  - eapply story_step; [exact Y|now left|nothing|apply (at_same s); now left| |eapply (set_same s); [reflexivity|exact Y]|nothing]. intros g' y c' [Q|[]]. injection Q as <- <- <-. split; [reflexivity|]. now rewrite H.
  - plain H Y.
  - plain H Y.
  - eapply story_step; [exact Y| |nothing|apply (at_same s); now left|nothing|eapply (set_same s); [reflexivity|exact Y]|nothing]. intros p y f I. destruct (live_upd False _ _ [] _ _ _ _ K H0 p y f I) as [J|[J|[]]]; auto.
  - plain H Y.
Qed.
End Due.
