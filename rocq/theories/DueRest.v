(** Requests with timeouts: deadlines are kept, and everything comes to rest. *)
From Coq Require Import ZArith List Bool Arith Lia Permutation.
Import ListNotations.
From Verif Require Import RequestModel.
From Verif Require Import TimerModel TimerSpec TimerInv TimerProofs TimerProps DueModel DueSpec DueProofs DueTrace DueStory.
Open Scope Z_scope.

Section Due.
Variable home : nat -> nat.
Variable blocks : nat -> bool.
Notation step := (step home blocks).
Notation run := (run home blocks).
Notation eff := (eff home blocks).
Notation part := (part home).

(** ** timers of a heap and timers *)
Lemma in_timers v tr : In v (timers tr) <-> In (OTimer v) tr.
Proof.
  unfold timers. rewrite in_flat_map. split; [intros (b & I & J); destruct b; try destruct J; subst; trivial; contradiction|]. intro I. exists (OTimer v). split; [exact I|now left].
Qed.
Lemma armed_part_fold x o : home x = o -> forall l st, fold_left (upd_armed x) (filter (on home o) l) st = fold_left (upd_armed x) l st.
Proof.
  intro Hx. induction l as [|v l IH]; intro st; [reflexivity|]. cbn [filter fold_left]. destruct (on home o v) eqn:O; cbn [fold_left]; rewrite IH; [reflexivity|]. f_equal. destruct v as [y e|y|y e n|n]; cbn [on upd_armed] in *; trivial; destruct (Nat.eqb_spec y x) as [->|]; trivial; rewrite Hx, Nat.eqb_refl in O; discriminate.
Qed.
Lemma armed_part x tr : armed (part (home x) tr) x = armed (timers tr) x.
Proof. unfold armed, part. now apply armed_part_fold. Qed.
Lemma armed_never x tr : (forall e, ~ deadline tr x e) -> armed (timers tr) x = None.
Proof.
  intro N. destruct (armed (timers tr) x) as [e|] eqn:A; [|reflexivity]. exfalso. unfold armed in A. apply fold_armed in A. destruct A as [A|(f & A)]; [now elim A|]. apply in_timers in A. exact (N _ A).
Qed.
Lemma armed_deadline x tr e : armed (timers tr) x = Some e -> exists f, deadline tr x f.
Proof. intro A. unfold armed in A. apply fold_armed in A. destruct A as [A|(f & A)]; [now elim A|]. exists f. now apply in_timers. Qed.

(** ** what becomes of a deadline *)
Definition failing (p : pc) : option nat := match p with Lk x (Fail _) | Ck x (Fail _) | Pr x _ | Wk x _ => Some x | _ => None end.
Definition ending (p : pc) : option nat := match p with Dl x _ | Pf x | St x => Some x | _ => None end.
Record kept (tr : list obs) (s : sys) : Prop := mkKe {
  k_disc : forall o, disciplined (part o tr);
  k_due : forall x e, deadline tr x e -> armed (timers tr) x = Some e \/ In (ORearm x) tr \/ delivered tr x <> [] \/ exists g, failing (at_ s g) = Some x;
  k_late : forall a g x c b e, tr = a ++ ODeliver g x c :: b -> deadline a x e -> armed (timers tr) x = None \/ ending (at_ s g) = Some x /\ ~ In (ODone g x) b }.

Lemma disc_snoc t v : disciplined t -> (forall x e, v = Armed x e -> armed t x = None) -> disciplined (t ++ [v]).
Proof.
  intros D H pre x e post E. destruct (split_app _ _ _ _ _ E) as [(b & Q & _)|(a & -> & Q)]; [exact (D _ _ _ _ Q)|]. destruct a as [|? [|? ?]]; try discriminate. injection Q as Q _. rewrite app_nil_r. exact (H _ _ Q).
Qed.
Lemma armed_step tr o v x : timers o = [v] -> armed (timers (tr ++ o)) x = upd_armed x (armed (timers tr) x) v.
Proof. intro T. rewrite timers_app, T. apply armed_snoc. Qed.
Lemma armed_still tr o x : timers o = [] -> armed (timers (tr ++ o)) x = armed (timers tr) x.
Proof. intro T. now rewrite timers_app, T, app_nil_r. Qed.
Lemma disc_part tr o v : timers o = [v] -> (forall p, disciplined (part p tr)) -> (forall x e, v = Armed x e -> forall f, ~ deadline tr x f) -> forall p, disciplined (part p (tr ++ o)).
Proof.
  intros T D H p. rewrite part_app. unfold DueProofs.part at 2. rewrite T. cbn [filter]. destruct (on home p v) eqn:O; [|rewrite app_nil_r; apply D]. apply disc_snoc; [apply D|].
  intros x e ->. cbn [on] in O. apply Nat.eqb_eq in O. subst p. rewrite armed_part. apply armed_never. exact (H _ _ eq_refl).
Qed.
Lemma disc_same tr o : timers o = [] -> (forall p, disciplined (part p tr)) -> forall p, disciplined (part p (tr ++ o)).
Proof. intros T D p. rewrite part_app. unfold DueProofs.part at 2. rewrite T. cbn [filter]. rewrite app_nil_r. apply D. Qed.

(** steps that do not touch timers *)
Lemma kept_same tr s o s' : kept tr s -> timers o = [] ->
  (forall g x c, In (ODeliver g x c) o -> o = [ODeliver g x c] /\ ending (at_ s' g) = Some x) ->
  (forall g x, failing (at_ s g) = Some x -> (exists g', failing (at_ s' g') = Some x) \/ In (ORearm x) o \/ delivered (tr ++ o) x <> []) ->
  (forall g x, ending (at_ s g) = Some x -> ending (at_ s' g) = Some x) -> (forall g x, In (ODone g x) o -> ending (at_ s g) = None) -> kept (tr ++ o) s'.
Proof.
  intros [D U V] T HD HF HE HO. split.
  - now apply disc_same.
  - intros x e. rewrite deadline_app. intros [I|I].
    + rewrite (armed_still _ _ _ T), in_app_iff. destruct (U _ _ I) as [A|[A|[A|(g & A)]]]; auto.
      * right. right. left. rewrite delivered_app. destruct (delivered tr x); [now elim A|discriminate].
      * destruct (HF _ _ A) as [B|[B|B]]; auto.
    + exfalso. apply in_timers in I. now rewrite T in I.
  - intros a g x c b e E I. rewrite (armed_still _ _ _ T). destruct (split_app _ _ _ _ _ E) as [(b' & Q & ->)|(a' & -> & Q)].
    + destruct (V _ _ _ _ _ _ Q I) as [A|[A B]]; [now left|]. right. split; [now apply HE|]. rewrite in_app_iff. intros [J|J]; [exact (B J)|]. rewrite (HO _ _ J) in A. discriminate.
    + destruct (HD g x c) as [Q1 Q2]; [rewrite Q; apply in_elt|]. rewrite Q1 in Q. destruct a' as [|? [|? ?]]; try discriminate. injection Q as <-. right. split; [exact Q2|]. intros [].
Qed.
(** steps that do *)
Lemma kept_timer tr s o v s' : kept tr s -> timers o = [v] -> (forall b, In b o -> b = OTimer v \/ exists k y, b = OTimeoutSet k y) ->
  (forall x e, v = Armed x e -> forall f, ~ deadline tr x f) ->
  (forall x, v = Stopped x -> delivered tr x <> []) -> (forall x e n, v = Fired x e n -> exists g, failing (at_ s' g) = Some x) ->
  (forall g x, failing (at_ s g) = Some x -> exists g', failing (at_ s' g') = Some x) ->
  (forall g x, ending (at_ s g) = Some x -> ending (at_ s' g) = Some x \/ v = Stopped x) -> kept (tr ++ o) s'.
Proof.
  intros [D U V] T HO HA HS HF HK HE. split.
  - eapply disc_part; eassumption.
  - intros x e. rewrite deadline_app, (armed_step _ _ _ _ T). intros [I|I].
    + rewrite in_app_iff, delivered_app. destruct (U _ _ I) as [A|[A|[A|(g & A)]]]; auto.
      * rewrite A. destruct v as [y f|y|y f n|n]; cbn [upd_armed]; auto; destruct (Nat.eqb_spec y x) as [->|]; auto.
        -- now elim (HA x f eq_refl e).
        -- right. right. left. pose proof (HS x eq_refl) as Q. destruct (delivered tr x); [now elim Q|discriminate].
        -- right. right. right. exact (HF _ _ _ eq_refl).
      * right. right. left. destruct (delivered tr x); [now elim A|discriminate].
      * destruct (HK _ _ A) as (g' & B). right. right. right. eauto.
    + destruct (HO _ I) as [Q|(k & y & Q)]; [|discriminate]. injection Q as <-. cbn [upd_armed]. rewrite Nat.eqb_refl. now left.
  - intros a g x c b e E I. rewrite (armed_step _ _ _ _ T). destruct (split_app _ _ _ _ _ E) as [(b' & Q & ->)|(a' & -> & Q)].
    + destruct (V _ _ _ _ _ _ Q I) as [A|[A B]].
      * left. rewrite A. destruct v as [y f|y|y f n|n]; cbn [upd_armed]; trivial; destruct (Nat.eqb_spec y x) as [->|]; trivial. elim (HA x f eq_refl e). rewrite Q. apply deadline_app. now left.
      * destruct (HE _ _ A) as [C| ->]; [|left; cbn [upd_armed]; now rewrite Nat.eqb_refl]. right. split; [exact C|]. rewrite in_app_iff. intros [J|J]; [exact (B J)|]. destruct (HO _ J) as [Q1|(k & y & Q1)]; discriminate.
    + exfalso. destruct (HO (ODeliver g x c)) as [Q1|(k & y & Q1)]; [rewrite Q; apply in_elt|discriminate|discriminate].
Qed.
Lemma move_fail s g p : failing p = failing (at_ s g) \/ failing (at_ s g) = None -> forall g' x, failing (at_ s g') = Some x -> exists g2, failing (gupd (at_ s) g p g2) = Some x.
Proof. intros H g' x F. exists g'. unfold gupd. destruct (geq g' g) eqn:E; [|exact F]. apply geq_ok in E. subst. destruct H; congruence. Qed.
Lemma move_end s g p : ending p = ending (at_ s g) \/ ending (at_ s g) = None -> forall g' x, ending (at_ s g') = Some x -> ending (gupd (at_ s) g p g') = Some x.
Proof. intros H g' x F. unfold gupd. destruct (geq g' g) eqn:E; [|exact F]. apply geq_ok in E. subst. destruct H; congruence. Qed.

Ltac nothing := cbn; intros; repeat match goal with g : gor |- _ => destruct g end; cbn in *; intuition discriminate.
Ltac both H := first [right; rewrite H; reflexivity|left; rewrite H; reflexivity].
Ltac plain H K := match type of K with kept _ ?s => apply (kept_same _ s _ _ K); [repeat match goal with g : gor |- _ => destruct g end; reflexivity|nothing|let X := fresh in intros ? ? X; left; revert X; apply (move_fail s); both H|apply (move_end s); both H|nothing] end.
Lemma kept_eff es tr s e o s' : ctl s -> heaps_ok home tr s -> counted tr s -> story es tr s -> settings tr s -> kept tr s -> eff s e o s' -> kept (tr ++ o) s'.
Proof.
  intros C HK CO Y SE K E. destruct E.
  - apply (kept_same _ s _ _ K); [reflexivity|nothing|eauto|auto|nothing].
  - eapply (kept_timer _ s); [exact K|reflexivity|intros ? [<-|[]]; now left|discriminate|discriminate|discriminate|eauto|auto].
  - plain H K.
  - plain H K.
  - plain H K.
  - apply (kept_same _ s _ _ K); [reflexivity|nothing|eauto|auto|nothing].
  - apply (kept_same _ s _ _ K); [reflexivity|nothing|eauto|auto|nothing].
  - apply (kept_same _ s _ _ K); [reflexivity|nothing| |apply (move_end s); both H|nothing]. intros g' y F. destruct (geq_dec g' g) as [->|N].
    + rewrite H in F. injection F as <-. right. left. now left.
    + left. exists g'. cbn [at_ move]. now rewrite gupd_other.
  - eapply (kept_timer _ s); [exact K|reflexivity|intros ? [<-|[]]; now left|discriminate|discriminate| |apply (move_fail s); both H|left; revert H1; apply (move_end s); both H].
    intros y f n Q. injection Q as <- <- <-. exists (L o). cbn [at_ move]. now rewrite gupd_same.
  - plain H K.
  - plain H K.
  - plain H K.
  - plain H K.
  - plain H K.
  - destruct b; plain H K.
  - plain H K.
  - eapply (kept_timer _ s); [exact K|now destruct g| | |discriminate|discriminate|apply (move_fail s); destruct b; both H|left; revert H1; apply (move_end s); destruct b; both H].
    + intros q [<-|I]; [now left|]. destruct g; [|destruct I]. destruct I as [<-|[]]. right. eauto.
    + intros y f Q. injection Q as <- <-. exact (proj2 (s_t3 _ _ SE _ _ _ _ H)).
  - plain H K.
  - plain H K.
  - destruct a; plain H K.
  - destruct a.
    + apply (kept_same _ s _ _ K); [reflexivity|nothing| |apply (move_end s); both H|nothing]. intros g' y F. left. exists g'. cbn [at_ move]. rewrite gupd_other; [exact F|]. intros ->. rewrite H in F. discriminate.
    + plain H K.
  - apply (kept_same _ s _ _ K); [reflexivity|nothing| |apply (move_end s); both H|nothing]. intros g' y F. destruct (geq_dec g' g) as [->|N].
    + rewrite H in F. destruct a as [|c]; [discriminate|]. injection F as <-. right. right. rewrite app_nil_r. destruct (CO x) as [[A B]|[(c' & A) _]]; [|rewrite A; discriminate]. exfalso. apply B. left. cbn [may] in H0.
      destruct (c_states _ C x) as [O|[O|O]]; [|exfalso|exact O].
      * exfalso. destruct O as [O|[O|O]]; rewrite O in H0; discriminate.
      * destruct (c_prep _ C x O) as (g' & M). pose proof (one_inside s g g' x C ltac:(now rewrite H) (mid_inside _ _ M)) as ->. rewrite H in M. discriminate.
    + left. exists g'. cbn [at_ move]. now rewrite gupd_other.
  - plain H K.
  - (* the Responder is called *)
    apply (kept_same _ s _ _ K); [reflexivity| | |apply (move_end s); both H|nothing].
    + intros g' y c' [Q|[]]. injection Q as <- <- <-. split; [reflexivity|]. cbn [at_ move]. now rewrite gupd_same.
    + intros g' y F. destruct (geq_dec g' g) as [->|N]; [|left; exists g'; cbn [at_ move]; now rewrite gupd_other]. rewrite H in F. injection F as <-. right. right. rewrite delivered_app. cbn [delivered flat_map]. rewrite Nat.eqb_refl. destruct (delivered tr x); discriminate.
  - plain H K.
  - plain H K.
  - (* Stop *)
    eapply (kept_timer _ s); [exact K|reflexivity|intros ? [<-|[]]; now left|discriminate| |discriminate|apply (move_fail s); both H|].
    + intros y Q. injection Q as <-. destruct (CO x) as [[_ B]|[(c & A) _]]; [|rewrite A; discriminate]. exfalso. apply B. left. exact (c_st _ C _ _ H).
    + intros g' y F. cbn [at_ move]. destruct (geq_dec g' g) as [->|N]; [rewrite H in F; injection F as <-; now right|left; now rewrite gupd_other].
  - apply (kept_same _ s _ _ K); [reflexivity|nothing|intros ? ? X; left; revert X; apply (move_fail s); both H|apply (move_end s); both H|]. intros g' y [Q|[]]. injection Q as <- <-. now rewrite H.
Qed.

(** ** all runs *)
Lemma run_app s a b : run s (a ++ b) = let (t, s1) := run s a in let (t', s2) := run s1 b in (t ++ t', s2).
Proof.
  revert s. induction a as [|e a IH]; intro s; cbn [app DueModel.run]; [now destruct (run s b)|]. destruct (step s e) as [o s1]. rewrite IH. destruct (run s1 a) as [t s2]. destruct (run s2 b) as [t' s3]. now rewrite app_assoc.
Qed.
Lemma run_snoc s a e tr s' : run s (a ++ [e]) = (tr, s') -> exists t s1 o, run s a = (t, s1) /\ step s1 e = (o, s') /\ tr = t ++ o.
Proof. rewrite run_app. destruct (run s a) as [t s1]. cbn [DueModel.run]. destruct (step s1 e) as [o s2] eqn:E. intro Q. injection Q as <- <-. exists t, s1, o. rewrite app_nil_r. auto. Qed.
Record good (es : list ev) (tr : list obs) (s : sys) : Prop := mkG { g_ctl : ctl s; g_heaps : heaps_ok home tr s; g_count : counted tr s; g_story : story es tr s }.
Lemma good_init : good [] [] init.
Proof.
  split.
  - split; cbn; try discriminate; auto; [split; discriminate|]. intro. left. now left.
  - split; [intro; exists []; reflexivity|intros o x e []].
  - intro x. left. split; [reflexivity|]. intros [H|(g & H)]; discriminate.
  - split; try (intros; discriminate); try contradiction; intros a; intros; destruct a; discriminate.
Qed.
Lemma good_run es : forall tr s, run init es = (tr, s) -> good es tr s.
Proof.
  induction es as [|e es IH] using rev_ind; intros tr s R; [injection R as <- <-; exact good_init|]. destruct (run_snoc _ _ _ _ _ R) as (t & s1 & o & R1 & S & ->). destruct (IH _ _ R1) as [C H K Y]. pose proof (step_eff _ _ _ _ _ _ _ H S) as E.
  split; [eapply ctl_eff; eassumption|eapply heaps_eff; eassumption|eapply counted_eff; eassumption|eapply story_eff; eassumption].
Qed.
Lemma init_settings : settings [] init.
Proof. split; try (intros; discriminate); [|intros x e _ []]. intro x. left. split; [reflexivity|]. discriminate. Qed.
Lemma init_kept : kept [] init.
Proof. split; [intros o pre x e post E; destruct pre; discriminate|intros x e []|intros a; intros; destruct a; discriminate]. Qed.
Lemma kept_run es : forall tr s, run init es = (tr, s) -> one_at_a_time tr -> settings tr s /\ kept tr s.
Proof.
  induction es as [|e es IH] using rev_ind; intros tr s R O; [injection R as <- <-; split; [exact init_settings|exact init_kept]|]. destruct (run_snoc _ _ _ _ _ R) as (t & s1 & o & R1 & S & ->). destruct (IH _ _ R1 (one_app _ _ O)) as [SE K]. destruct (good_run _ _ _ R1) as [C H CO Y]. pose proof (step_eff _ _ _ _ _ _ _ H S) as E.
  split; [eapply settings_eff; eassumption|eapply kept_eff; eassumption].
Qed.

(** ** at rest *)
Lemma moves s s1 g p o now : step s (EGo g now) = (o, move s1 g p) -> at_ s g <> p -> ~ idle home blocks s (EGo g now).
Proof.
  intros E N [I|(n & I)]; rewrite E in I; injection I as _ I; apply N; rewrite <- I; cbn [at_ move]; now rewrite gupd_same.
Qed.
Lemma moves' s s1 g p o now : go home blocks s g now = (o, move s1 g p) -> at_ s g <> p -> ~ idle home blocks s (EGo g now).
Proof. apply moves. Qed.
Ltac go_on A := eapply moves'; [unfold go; rewrite A; reflexivity|rewrite A; try discriminate].
(** inside a completion one can always go on *)
Lemma inside_moves tr s g x now : heaps_ok home tr s -> (forall y, blocks y = false) -> inside (at_ s g) = Some x -> ~ idle home blocks s (EGo g now).
Proof.
  intros H B I. destruct (at_ s g) as [|y d|y|y d b|y d b|y d b|y|y a|y a|y c|y c|y c|y|y|y|] eqn:A; try discriminate.
  - go_on A. destruct (may s y a); discriminate.
  - go_on A.
  - go_on A.
  - eapply moves'; [unfold go; rewrite A, B; reflexivity|rewrite A; discriminate].
  - go_on A.
  - destruct (h_run _ _ _ H (home y)) as (ops & R). destruct (hstep_some _ _ _ (Stop y) R) as (h' & v & S). eapply moves'; [unfold go; rewrite A; unfold timer; rewrite S; reflexivity|rewrite A; discriminate].
  - go_on A.
Qed.
Lemma rest tr s now : ctl s -> heaps_ok home tr s -> (forall y, blocks y = false) -> quiet home blocks now s -> forall g, at_ s g = Free \/ at_ s g = Gone.
Proof.
  intros C H B Q g. specialize (Q g) as Qg. destruct (at_ s g) as [|y d|y|y d b|y d b|y d b|y|y a|y a|y c|y c|y c|y|y|y|] eqn:A; auto; exfalso; try (revert Qg; apply (inside_moves tr s g y now H B); rewrite A; reflexivity).
  - revert Qg. destruct (state (rq s y) =? RsNew) eqn:E; (eapply moves'; [unfold go; rewrite A, E; reflexivity|rewrite A; discriminate]).
  - revert Qg. destruct (performed s y) eqn:E; (eapply moves'; [unfold go; rewrite A, E; reflexivity|rewrite A; discriminate]).
  - revert Qg. destruct ((0 <? d) && negb (tset (rq s y))) eqn:E; (eapply moves'; [unfold go; rewrite A, E; reflexivity|rewrite A; try destruct b; discriminate]).
  - revert Qg. go_on A.
  - revert Qg. destruct (h_run _ _ _ H (home y)) as (ops & R). destruct (hstep_some _ _ _ (Arm y (now + d)) R) as (h' & v & S). eapply moves'; [unfold go; rewrite A; unfold timer; rewrite S; reflexivity|rewrite A; destruct b; discriminate].
  - revert Qg. destruct (performed s y) eqn:E; (eapply moves'; [unfold go; rewrite A, E; reflexivity|rewrite A; discriminate]).
  - destruct (lock (rq s y)) as [g'|] eqn:E.
    + apply (c_lock _ C) in E. exact (inside_moves tr s g' y now H B E (Q g')).
    + revert Qg. eapply moves'; [unfold go; rewrite A, E; reflexivity|rewrite A; discriminate].
Qed.
Lemma asleep_all ops h t now : hrun hinit ops = Some (h, t) -> hstep h (Pop now) = Some (h, Asleep now) -> forall x e, In (x, e) (live_cells h) -> now <= e.
Proof.
  intros R S x e I. destruct (hrun_inv0 _ _ _ R) as (T & fl & V). destruct (hstep_ok h T fl (Pop now) V) as (h3 & T3 & fl3 & ev3 & S3 & I3 & C). rewrite S in S3. injection S3 as <- <-.
  destruct C as [(i & y & f & C & _)|(C & _ & _ & M)]; [discriminate|]. apply (live_iff _ _ _ _ _ V) in I. destruct I as (j & J). apply (M _ J).
Qed.
Lemma nothing_due tr s now : ctl s -> heaps_ok home tr s -> (forall y, blocks y = false) -> quiet home blocks now s -> forall o x e, In (x, e) (live_cells (hp s o)) -> now <= e.
Proof.
  intros C H B Q o x e I. destruct (c_loop _ C o) as [_ N]. destruct (rest tr s now C H B Q (L o)) as [F|F]; [|rewrite F in N; discriminate]. clear N.
  destruct (h_run _ _ _ H o) as (ops & R). destruct (hstep_some _ _ _ (Pop now) R) as (h' & v & S). destruct (pop_ev _ _ _ _ S) as [[-> ->]|(y & f & ->)].
  - exact (asleep_all _ _ _ _ R S _ _ I).
  - exfalso. destruct (Q (L o)) as [E|(n & E)]; cbn [DueModel.step] in E; unfold go in E; rewrite F, S in E; injection E as E; discriminate.
Qed.
Lemma live_armed tr s x e : heaps_ok home tr s -> kept tr s -> (In (x, e) (live_cells (hp s (home x))) <-> armed (timers tr) x = Some e).
Proof.
  intros H K. destruct (h_run _ _ _ H (home x)) as (ops & R). destruct (C37_live_entries_are_the_armed_timers _ _ _ R (k_disc _ _ K _)) as [A _]. now rewrite A, armed_part.
Qed.

(** ** the work that is left *)
Definition weight (p : pc) : nat :=
  match p with
  | Free | Gone => 0 | Sx _ | Sq _ | Ul _ => 1 | St _ => 2 | Pf _ => 3 | Dl _ _ => 4 | Wk _ _ => 5 | Pr _ _ => 6 | Ck _ _ => 7 | Lk _ _ => 8
  | T3 _ _ _ => 14 | T2 _ _ _ => 15 | T1 _ _ _ => 16 | Sp _ _ => 17
  end%nat.
Definition names (p : pc) : option nat := match p with Sp x _ | T1 x _ _ | T2 x _ _ | T3 x _ _ => Some x | _ => None end.
Definition sumf (f : nat -> nat) (n : nat) : nat := list_sum (map f (seq 0 n)).
Definition work (N M : nat) (s : sys) : nat :=
  (sumf (fun k => weight (at_ s (U k))) N + sumf (fun o => weight (at_ s (L o)) + 12 * length (live_cells (hp s o))) M)%nat.
Record fin (N M : nat) (s : sys) : Prop := mkFin {
  f_u : forall k, (N <= k)%nat -> at_ s (U k) = Free;
  f_l : forall o, (M <= o)%nat -> at_ s (L o) = Free /\ live_cells (hp s o) = [];
  f_n : forall g x, names (at_ s g) = Some x -> (home x < M)%nat }.

Lemma sumf_S f n : sumf f (S n) = (sumf f n + f n)%nat.
Proof. unfold sumf. rewrite seq_S, map_app, list_sum_app. cbn. lia. Qed.
Lemma sumf_ext f g n : (forall k, (k < n)%nat -> f k = g k) -> sumf f n = sumf g n.
Proof. intro H. induction n as [|n IH]; [reflexivity|]. rewrite !sumf_S, IH, (H n); auto. Qed.
Lemma sumf_upd f g n i : (i < n)%nat -> (forall k, k <> i -> f k = g k) -> (sumf f n + g i = sumf g n + f i)%nat.
Proof.
  induction n as [|n IH]; intros L H; [lia|]. rewrite !sumf_S. destruct (Nat.eq_dec i n) as [->|N].
  - rewrite (sumf_ext f g n); [lia|]. intros k K. apply H. lia.
  - specialize (IH ltac:(lia) H). rewrite (H n) by auto. lia.
Qed.
Lemma fin_mono N M N' M' s : fin N M s -> (N <= N')%nat -> (M <= M')%nat -> fin N' M' s.
Proof. intros [A B C] HN HM. split; intros; [apply A; lia|apply B; lia|]. specialize (C _ _ H). lia. Qed.
Definition in_range (N M : nat) (g : gor) : Prop := match g with U k => (k < N)%nat | L o => (o < M)%nat end.
Lemma fin_free N M s g : fin N M s -> ~ in_range N M g -> at_ s g = Free.
Proof. intros F R. destruct g as [k|o]; cbn in R; [apply (f_u _ _ _ F)|apply (f_l _ _ _ F)]; lia. Qed.

(** the work left after goroutine [g] moves to [p], the heaps being as they are *)
Lemma work_move N M s g p : in_range N M g -> (work N M (move s g p) + weight (at_ s g) = work N M s + weight p)%nat.
Proof.
  intro R. unfold work. cbn [at_ hp move]. destruct g as [k|o]; cbn in R.
  - pose proof (sumf_upd (fun j => weight (gupd (at_ s) (U k) p (U j))) (fun j => weight (at_ s (U j))) N k R) as Q. cbv beta in Q. rewrite gupd_same in Q. lapply Q; [clear Q; intro Q|].
    + rewrite (sumf_ext (fun o => weight (gupd (at_ s) (U k) p (L o)) + 12 * length (live_cells (hp s o)))%nat (fun o => weight (at_ s (L o)) + 12 * length (live_cells (hp s o)))%nat M) by (intros; rewrite gupd_other by discriminate; reflexivity). lia.
    + intros j J. rewrite gupd_other; [reflexivity|congruence].
  - pose proof (sumf_upd (fun j => weight (gupd (at_ s) (L o) p (L j)) + 12 * length (live_cells (hp s j)))%nat (fun j => weight (at_ s (L j)) + 12 * length (live_cells (hp s j)))%nat M o R) as Q. cbv beta in Q. rewrite gupd_same in Q.
    rewrite (sumf_ext (fun k => weight (gupd (at_ s) (L o) p (U k))) (fun k => weight (at_ s (U k))) N) by (intros; rewrite gupd_other by discriminate; reflexivity). lapply Q; [lia|].
    intros j J. rewrite gupd_other; [reflexivity|congruence].
Qed.
Lemma work_hp N M s o h : (o < M)%nat -> (work N M (set_hp s o h) + 12 * length (live_cells (hp s o)) = work N M s + 12 * length (live_cells h))%nat.
Proof.
  intro R. unfold work. cbn [at_ hp set_hp]. pose proof (sumf_upd (fun j => weight (at_ s (L j)) + 12 * length (live_cells (fupd (hp s) o h j)))%nat (fun j => weight (at_ s (L j)) + 12 * length (live_cells (hp s j)))%nat M o R) as Q. cbv beta in Q. rewrite fupd_same in Q. lapply Q; [lia|].
  intros j J. now rewrite fupd_other.
Qed.
Lemma work_hp_out N M s o h : (M <= o)%nat -> work N M (set_hp s o h) = work N M s.
Proof. intro R. unfold work. cbn [at_ hp set_hp]. f_equal. apply sumf_ext. intros k K. now rewrite fupd_other by lia. Qed.
Lemma work_rq N M s x r : work N M (set_rq s x r) = work N M s. Proof. reflexivity. Qed.

Lemma fin_move N M s g p : fin N M s -> in_range N M g -> (forall x, names p = Some x -> (home x < M)%nat) -> fin N M (move s g p).
Proof.
  intros [A B C] R H. split; cbn [at_ hp move].
  - intros k K. rewrite gupd_other; [now apply A|]. intros <-. cbn in R. lia.
  - intros o K. rewrite gupd_other; [now apply B|]. intros <-. cbn in R. lia.
  - intros g' x. unfold gupd. destruct (geq g' g); [apply H|apply C].
Qed.
Lemma fin_hp N M s o h : fin N M s -> (o < M)%nat -> fin N M (set_hp s o h).
Proof. intros [A B C] R. split; cbn [at_ hp set_hp]; trivial. intros p K. rewrite fupd_other by lia. now apply B. Qed.
Lemma fin_hp_out N M s o h : fin N M s -> live_cells h = [] -> fin N M (set_hp s o h).
Proof. intros [A B C] R. split; cbn [at_ hp set_hp]; trivial. intros p K. unfold fupd. destruct (Nat.eqb_spec p o) as [->|]; [split; [apply B; exact K|exact R]|now apply B]. Qed.
Lemma fin_rq N M s x r : fin N M s -> fin N M (set_rq s x r).
Proof. intros [A B C]. split; assumption. Qed.

Lemma len_live ops h t c h' v : hrun hinit ops = Some (h, t) -> hstep h c = Some (h', v) ->
  match v with Armed _ _ => length (live_cells h') = S (length (live_cells h)) | Fired _ _ _ => length (live_cells h) = S (length (live_cells h')) | _ => (length (live_cells h') <= length (live_cells h))%nat end.
Proof.
  intros R S. pose proof (C38_only_freed_cells_reused _ _ _ _ _ _ R S) as C. destruct v; [exact (Permutation_length C)| |exact (Permutation_length C)|rewrite C; auto].
  destruct C as [->|(e & C)]; [auto|]. apply Permutation_length in C. cbn in C. lia.
Qed.

(** what a goroutine does, it does with less left *)
Lemma work_go N M tr s g now o s' : heaps_ok home tr s -> fin N M s -> eff s (EGo g now) o s' -> fin N M s' /\ (s' = s /\ (o = [] \/ o = [OTimer (Asleep now)]) \/ (work N M s' < work N M s)%nat).
Proof.
  intros H F E. assert (D : ~ in_range N M g \/ in_range N M g) by (destruct g; cbn; lia). destruct D as [OUT|R].
  { assert (A : at_ s g = Free) by now apply (fin_free N M).
    inversion E; subst; try congruence; try (split; [assumption|left; auto]).
    exfalso. cbn in OUT. destruct (f_l _ _ _ F o0 ltac:(lia)) as [_ Z]. destruct (h_run _ _ _ H o0) as (ops & R). match goal with X : hstep _ _ = _ |- _ => pose proof (len_live _ _ _ _ _ _ R X) as Q end. cbn in Q. rewrite Z in Q. discriminate. }
  assert (MV : forall p, (weight p < weight (at_ s g))%nat -> (forall x, names p = Some x -> names (at_ s g) = Some x) -> forall x r, fin N M (move (set_rq s x r) g p) /\ (work N M (move (set_rq s x r) g p) < work N M s)%nat).
  { intros p W NM x r. split; [apply fin_move; [now apply fin_rq|exact R|intros y Y; exact (f_n _ _ _ F g y (NM y Y))]|]. pose proof (work_move N M (set_rq s x r) g p R) as Q. rewrite work_rq in Q. cbn [at_ set_rq] in Q. lia. }
  assert (MV0 : forall p, (weight p < weight (at_ s g))%nat -> (forall x, names p = Some x -> names (at_ s g) = Some x) -> fin N M (move s g p) /\ (work N M (move s g p) < work N M s)%nat).
  { intros p W NM. split; [apply fin_move; [exact F|exact R|intros y Y; exact (f_n _ _ _ F g y (NM y Y))]|]. pose proof (work_move N M s g p R) as Q. lia. }
  inversion E; subst; try (split; [assumption|left; auto; fail]);
    try (match goal with A : at_ s _ = _ |- fin _ _ (move s _ ?p) /\ _ => destruct (MV0 p) as [X1 X2]; [rewrite A; try destruct b; cbn; lia|intro; rewrite A; try destruct b; cbn; congruence|]; split; [exact X1|right; exact X2] end);
    try (match goal with A : at_ s _ = _ |- fin _ _ (move (set_state s ?x ?z) _ ?p) /\ _ => destruct (MV p) with (x := x) (r := mkRq z (lock (rq s x)) (tset (rq s x))) as [X1 X2]; [rewrite A; cbn; lia|intro; rewrite A; cbn; congruence|]; split; [exact X1|right; exact X2] end);
    try (match goal with A : at_ s _ = _ |- fin _ _ (move (set_lock s ?x ?z) _ ?p) /\ _ => destruct (MV p) with (x := x) (r := mkRq (state (rq s x)) z (tset (rq s x))) as [X1 X2]; [rewrite A; cbn; lia|intro; rewrite A; cbn; congruence|]; split; [exact X1|right; exact X2] end).
  - (* fires *)
    match goal with X : at_ s _ = _ |- _ => rename X into A end. cbn in R. destruct (h_run _ _ _ H o0) as (ops & RU). match goal with X : hstep _ _ = _ |- _ => pose proof (len_live _ _ _ _ _ _ RU X) as Q end. cbn in Q. split.
    + apply fin_move; [now apply fin_hp|exact R|discriminate].
    + right. pose proof (work_move N M (set_hp s o0 h) (L o0) (Lk x (Fail RcTimeout)) R) as Q1. pose proof (work_hp N M s o0 h R) as Q2. cbn [at_ set_hp] in Q1. rewrite A in Q1. cbn [weight] in Q1. lia.
  - match goal with X : at_ s _ = _ |- _ => rename X into A end. destruct (MV (T3 x d b)) with (x := x) (r := mkRq (state (rq s x)) (lock (rq s x)) true) as [X1 X2]; [rewrite A; cbn; lia|rewrite A; cbn; congruence|]. split; [exact X1|right; exact X2].
  - (* After *)
    match goal with X : at_ s _ = _ |- _ => rename X into A end.
    assert (Hx : (home x < M)%nat) by (apply (f_n _ _ _ F g); now rewrite A). destruct (h_run _ _ _ H (home x)) as (ops & RU). match goal with X : hstep _ _ = _ |- _ => pose proof (len_live _ _ _ _ _ _ RU X) as Q end. cbn in Q. split.
    + apply fin_move; [now apply fin_hp|exact R|destruct b; discriminate].
    + right. pose proof (work_move N M (set_hp s (home x) h) g (if b then Sq x else Free) R) as Q1. pose proof (work_hp N M s (home x) h Hx) as Q2. cbn [at_ set_hp] in Q1. rewrite A in Q1. destruct b; cbn [weight] in Q1; lia.
  - (* Stop *)
    match goal with X : at_ s _ = _ |- _ => rename X into A end.
    destruct (h_run _ _ _ H (home x)) as (ops & RU). match goal with X : hstep _ _ = _ |- _ => pose proof (len_live _ _ _ _ _ _ RU X) as Q end. cbn in Q. destruct (le_lt_dec M (home x)) as [OUT|IN].
    + destruct (f_l _ _ _ F _ OUT) as [_ Z]. rewrite Z in Q. assert (Z' : live_cells h = []) by (destruct (live_cells h); [reflexivity|cbn in Q; lia]). split; [apply fin_move; [now apply fin_hp_out|exact R|discriminate]|].
      right. pose proof (work_move N M (set_hp s (home x) h) g (Ul x) R) as Q1. rewrite (work_hp_out N M s (home x) h OUT) in Q1. cbn [at_ set_hp] in Q1. rewrite A in Q1. cbn [weight] in Q1. lia.
    + split; [apply fin_move; [now apply fin_hp|exact R|discriminate]|]. right. pose proof (work_move N M (set_hp s (home x) h) g (Ul x) R) as Q1. pose proof (work_hp N M s (home x) h IN) as Q2. cbn [at_ set_hp] in Q1. rewrite A in Q1. cbn [weight] in Q1. lia.
Qed.

Lemma fin_eff N M tr s e o s' : heaps_ok home tr s -> fin N M s -> eff s e o s' -> exists N' M', fin N' M' s'.
Proof.
  intros H F E. destruct e as [k x d|k x d|k x a|x|x|g new|g now].
  - inversion E; subst; [eauto|]. exists (Nat.max N (S k)), (Nat.max M (S (home x))). apply fin_move; [apply (fin_mono N M); trivial; lia|cbn; lia|]. intros y Q. injection Q as <-. lia.
  - inversion E; subst; [eauto|]. exists (Nat.max N (S k)), (Nat.max M (S (home x))). apply fin_move; [apply (fin_mono N M); trivial; lia|cbn; lia|]. intros y Q. injection Q as <-. lia.
  - inversion E; subst; [eauto|]. exists (Nat.max N (S k)), (Nat.max M (S (home x))). apply fin_move; [apply (fin_mono N M); trivial; lia|cbn; lia|]. discriminate.
  - exists N, M. inversion E; subst; [trivial|]. now apply fin_rq.
  - exists N, M. inversion E; subst; [trivial|]. now apply fin_rq.
  - exists N, M. inversion E; subst; [trivial|]. apply fin_move; [now apply fin_rq| |discriminate].
    assert (D : ~ in_range N M g \/ in_range N M g) by (destruct g; cbn; lia). destruct D as [D|D]; [|exact D]. rewrite (fin_free _ _ _ _ F D) in *. discriminate.
  - exists N, M. exact (proj1 (work_go _ _ _ _ _ _ _ _ H F E)).
Qed.
Lemma fin_run es : forall tr s, run init es = (tr, s) -> exists N M, fin N M s.
Proof.
  induction es as [|e es IH] using rev_ind; intros tr s R.
  - injection R as <- <-. exists 0%nat, 0%nat. split; [reflexivity|split; reflexivity|discriminate].
  - destruct (run_snoc _ _ _ _ _ R) as (t & s1 & o & R1 & S & ->). destruct (IH _ _ R1) as (N & M & F). pose proof (g_heaps _ _ _ (good_run _ _ _ R1)) as H. exact (fin_eff _ _ _ _ _ _ _ H F (step_eff _ _ _ _ _ _ _ H S)).
Qed.
Lemma effective_bound N M es : forall tr s, heaps_ok home tr s -> fin N M s -> effective home blocks s es -> (length es <= work N M s)%nat.
Proof.
  induction es as [|e es IH]; intros tr s H F E; [cbn; lia|]. destruct E as ((g & now & ->) & I & E). destruct (step s (EGo g now)) as [o s'] eqn:S. cbn [snd] in E. pose proof (step_eff _ _ _ _ _ _ _ H S) as X. destruct (work_go _ _ _ _ _ _ _ _ H F X) as [F' [[-> O]|L]].
  - exfalso. apply I. unfold idle. rewrite S. destruct O as [->| ->]; [now left|right; eauto].
  - specialize (IH _ _ (heaps_eff _ _ _ _ _ _ _ H X) F' E). cbn [length]. lia.
Qed.
End Due.
