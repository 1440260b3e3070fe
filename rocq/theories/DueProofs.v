(** Requests with timeouts: invariants. *)
From Coq Require Import ZArith List Bool Arith Lia Permutation.
Import ListNotations.
From Verif Require Import RequestModel.
From Verif Require Import TimerModel TimerSpec TimerInv TimerProofs TimerProps DueModel DueSpec.
Open Scope Z_scope.

Lemma geq_ok a b : geq a b = true <-> a = b.
Proof.
  destruct a as [i|i], b as [j|j]; cbn [geq]; try (split; discriminate); rewrite Nat.eqb_eq; split; congruence.
Qed.
Lemma geq_refl a : geq a a = true. Proof. now apply geq_ok. Qed.
Lemma geq_dec (a b : gor) : {a = b} + {a <> b}.
Proof. destruct (geq a b) eqn:E; [left; now apply geq_ok|right; intro H; apply geq_ok in H; congruence]. Qed.
Lemma gupd_same {A} (f : gor -> A) g v : gupd f g v g = v. Proof. unfold gupd. now rewrite geq_refl. Qed.
Lemma gupd_other {A} (f : gor -> A) g v j : j <> g -> gupd f g v j = f j.
Proof. intro H. unfold gupd. destruct (geq j g) eqn:E; [apply geq_ok in E; contradiction|reflexivity]. Qed.
Lemma fupd_same {A} (f : nat -> A) i v : fupd f i v i = v. Proof. unfold fupd. now rewrite Nat.eqb_refl. Qed.
Lemma fupd_other {A} (f : nat -> A) i v j : j <> i -> fupd f i v j = f j.
Proof. intro H. unfold fupd. destruct (Nat.eqb_spec j i); [contradiction|reflexivity]. Qed.

Section Due.
Variable home : nat -> nat.
Variable blocks : nat -> bool.
Notation step := (step home blocks).
Notation run := (run home blocks).
Notation go := (go home blocks).

Definition lbl (g : gor) (f : nat -> list obs) : list obs := match g with U k => f k | L _ => [] end.

Inductive eff (s : sys) : ev -> list obs -> sys -> Prop :=
| f_idle e : eff s e [] s
| f_asleep o now : at_ s (L o) = Free -> hstep (hp s o) (Pop now) = Some (hp s o, Asleep now) -> eff s (EGo (L o) now) [OTimer (Asleep now)] s
| f_send k x d : at_ s (U k) = Free -> eff s (ESend k x d) [] (move s (U k) (Sp x d))
| f_set k x d : at_ s (U k) = Free -> eff s (ESetTimeout k x d) [OSetTimeout k x d] (move s (U k) (T1 x d false))
| f_respond k x a : at_ s (U k) = Free -> eff s (ERespond k x a) [ORespond k x (code_of a)] (move s (U k) (Lk x a))
| f_pend x : state (rq s x) = RsNew -> eff s (EPend x) [] (set_state s x RsPending)
| f_fly x : state (rq s x) = RsPending -> eff s (EFly x) [] (set_state s x RsInFly)
| f_rearm g x c z (new : bool) : at_ s g = Wk x c -> z = (if new then RsNew else RsPending) -> eff s (ERearm g new) [ORearm x] (move (set_state s x z) g (Ul x))
| f_fire o now x e h : at_ s (L o) = Free -> hstep (hp s o) (Pop now) = Some (h, Fired x e now) -> eff s (EGo (L o) now) [OTimer (Fired x e now)] (move (set_hp s o h) (L o) (Lk x (Fail RcTimeout)))
| f_sp g x d now : at_ s g = Sp x d -> state (rq s x) = RsNew -> eff s (EGo g now) (lbl g (fun k => [OSetTimeout k x d])) (move (set_state s x RsPending) g (T1 x d true))
| f_sp_no g x d now : at_ s g = Sp x d -> state (rq s x) <> RsNew -> eff s (EGo g now) [] (move s g (Sx x))
| f_sx g x now : at_ s g = Sx x -> performed s x = true -> eff s (EGo g now) [] (move s g Free)
| f_sx_no g x now : at_ s g = Sx x -> performed s x = false -> eff s (EGo g now) (lbl g (fun k => [OPanic k])) (move s g Gone)
| f_t1 g x d b now : at_ s g = T1 x d b -> 0 < d -> tset (rq s x) = false -> eff s (EGo g now) [] (move s g (T2 x d b))
| f_t1_no g x d b now : at_ s g = T1 x d b -> (0 < d -> tset (rq s x) = true) -> eff s (EGo g now) (lbl g (fun k => [OTimeoutSet k x])) (move s g (if b then Sq x else Free))
| f_t2 g x d b now : at_ s g = T2 x d b -> eff s (EGo g now) [] (move (set_tset s x) g (T3 x d b))
| f_t3 g x d b now h : at_ s g = T3 x d b -> hstep (hp s (home x)) (Arm x (now + d)) = Some (h, Armed x (now + d)) ->
    eff s (EGo g now) (OTimer (Armed x (now + d)) :: lbl g (fun k => [OTimeoutSet k x])) (move (set_hp s (home x) h) g (if b then Sq x else Free))
| f_sq g x now : at_ s g = Sq x -> performed s x = true -> eff s (EGo g now) [] (move s g Free)
| f_sq_push g x now : at_ s g = Sq x -> performed s x = false -> eff s (EGo g now) [OPush x] (move s g Free)
| f_lk g x a now : at_ s g = Lk x a -> lock (rq s x) = None -> eff s (EGo g now) [] (move (set_lock s x (Some g)) g (Ck x a))
| f_ck g x a now : at_ s g = Ck x a -> may s x a = true -> eff s (EGo g now) [] (move s g (Pr x (code_of a)))
| f_ck_no g x a now : at_ s g = Ck x a -> may s x a = false -> eff s (EGo g now) [] (move s g (Ul x))
| f_pr g x c now : at_ s g = Pr x c -> eff s (EGo g now) [] (move (set_state s x RsPrepared) g (Wk x c))
| f_wk g x c now : at_ s g = Wk x c -> eff s (EGo g now) [ODeliver g x c] (move s g (Dl x c))
| f_dl g x c now : at_ s g = Dl x c -> blocks x = false -> eff s (EGo g now) [] (move s g (Pf x))
| f_pf g x now : at_ s g = Pf x -> eff s (EGo g now) [] (move (set_state s x RsPerformed) g (St x))
| f_st g x now h : at_ s g = St x -> hstep (hp s (home x)) (Stop x) = Some (h, Stopped x) -> eff s (EGo g now) [OTimer (Stopped x)] (move (set_hp s (home x) h) g (Ul x))
| f_ul g x now : at_ s g = Ul x -> eff s (EGo g now) [ODone g x] (move (set_lock s x None) g Free).

(** what happened on heap [o]: events about timers that are on it *)
Definition on (o : nat) (v : tev) : bool :=
  match v with Armed x _ | Stopped x | Fired x _ _ => Nat.eqb (home x) o | Asleep _ => false end.
Definition part (o : nat) (tr : list obs) : list tev := filter (on o) (timers tr).

Record heaps_ok (tr : list obs) (s : sys) : Prop := mkHO {
  h_run : forall o, exists ops, hrun hinit ops = Some (hp s o, part o tr);
  h_home : forall o x e, In (x, e) (live_cells (hp s o)) -> home x = o }.

Lemma timers_app a b : timers (a ++ b) = timers a ++ timers b.
Proof. apply flat_map_app. Qed.
Lemma part_app o a b : part o (a ++ b) = part o a ++ part o b.
Proof. unfold part. now rewrite timers_app, filter_app. Qed.
Lemma hstep_some h ops t c : hrun hinit ops = Some (h, t) -> exists h' v, hstep h c = Some (h', v).
Proof.
  intro E. destruct (C38_timer_heap_never_corrupts (ops ++ [c])) as (h2 & t2 & E2 & _). apply hrun_app in E2. destruct E2 as (h1 & ta & tb & Ea & Eb & _).
  rewrite E in Ea. injection Ea as <- <-. cbn [hrun] in Eb. destruct (hstep h c) as [[h' v]|]; [eauto|discriminate].
Qed.
Lemma hrun_snoc h ops t c h' v : hrun hinit ops = Some (h, t) -> hstep h c = Some (h', v) -> hrun hinit (ops ++ [c]) = Some (h', t ++ [v]).
Proof. intros E S. apply hrun_app. exists h, t, [v]. split; [exact E|]. split; [|reflexivity]. cbn [hrun]. now rewrite S. Qed.
Lemma arm_ev h x e h' v : hstep h (Arm x e) = Some (h', v) -> v = Armed x e.
Proof. cbn. destruct (push h x e); [|discriminate]. cbn. congruence. Qed.
Lemma stop_ev h x h' v : hstep h (Stop x) = Some (h', v) -> v = Stopped x.
Proof. cbn. destruct (Nat.eqb _ _); [congruence|]. destruct (remove h (ti h x)); [|discriminate]. cbn. congruence. Qed.
Lemma pop_ev h n h' v : hstep h (Pop n) = Some (h', v) -> (v = Asleep n /\ h' = h) \/ exists x e, v = Fired x e n.
Proof.
  cbn. destruct (_ =? _); [intro H; injection H as <- <-; auto|]. destruct (get h (top h)) as [t|]; [|discriminate]. cbn. destruct (_ <=? _); [intro H; injection H as <- <-; auto|].
  destruct (remove h (top h)); [|discriminate]. cbn. destruct (ix t); [|discriminate]. intro H. injection H as <- <-. right. eauto.
Qed.

Lemma step_eff tr s e o s' : heaps_ok tr s -> step s e = (o, s') -> eff s e o s'.
Proof.
  intros H E. assert (HS : forall p c, exists h' v, hstep (hp s p) c = Some (h', v)).
  { intros p c. destruct (h_run _ _ H p) as (ops & R). exact (hstep_some _ _ _ c R). }
  destruct e as [k x d|k x d|k x a|x|x|g new|g now]; cbn [DueModel.step] in E.
  - destruct (at_ s (U k)) eqn:A; injection E as <- <-; try apply f_idle. now apply f_send.
  - destruct (at_ s (U k)) eqn:A; injection E as <- <-; try apply f_idle. now apply f_set.
  - destruct (at_ s (U k)) eqn:A; injection E as <- <-; try apply f_idle. now apply f_respond.
  - destruct (Z.eqb_spec (state (rq s x)) RsNew); injection E as <- <-; [now apply f_pend|apply f_idle].
  - destruct (Z.eqb_spec (state (rq s x)) RsPending); injection E as <- <-; [now apply f_fly|apply f_idle].
  - destruct (at_ s g) eqn:A; injection E as <- <-; try apply f_idle. eapply f_rearm; [exact A|reflexivity].
  - unfold DueModel.go in E. destruct (at_ s g) eqn:A.
    + destruct g as [k|p]; [injection E as <- <-; apply f_idle|]. destruct (HS p (Pop now)) as (h' & v & S). rewrite S in E. destruct (pop_ev _ _ _ _ S) as [[-> ->]|(x & e & ->)]; injection E as <- <-; [now apply f_asleep|now apply f_fire].
    + destruct (Z.eqb_spec (state (rq s x)) RsNew); injection E as <- <-; [now apply f_sp|eapply f_sp_no; eauto].
    + destruct (performed s x) eqn:P; injection E as <- <-; [eapply f_sx; eauto|now apply f_sx_no with (x := x)].
    + destruct (Z.ltb_spec 0 d), (tset (rq s x)) eqn:T; injection E as <- <-; try (apply f_t1_no with (d := d); [exact A|lia]); try (apply f_t1_no with (d := d); [exact A|trivial]). now apply f_t1.
    + injection E as <- <-. now apply f_t2.
    + unfold timer in E. destruct (HS (home x) (Arm x (now + d))) as (h' & v & S). rewrite S in E. pose proof (arm_ev _ _ _ _ _ S) as ->. injection E as <- <-. eapply f_t3; eauto.
    + destruct (performed s x) eqn:P; injection E as <- <-; [eapply f_sq; eauto|eapply f_sq_push; eauto].
    + destruct (lock (rq s x)) eqn:P; injection E as <- <-; [apply f_idle|now apply f_lk].
    + injection E as <- <-. destruct (may s x a) eqn:P; [now apply f_ck|eapply f_ck_no; eauto].
    + injection E as <- <-. now apply f_pr.
    + injection E as <- <-. now apply f_wk.
    + destruct (blocks x) eqn:B; injection E as <- <-; [apply f_idle|eapply f_dl; eauto].
    + injection E as <- <-. now apply f_pf.
    + unfold timer in E. destruct (HS (home x) (Stop x)) as (h' & v & S). rewrite S in E. pose proof (stop_ev _ _ _ _ S) as ->. injection E as <- <-. now apply f_st.
    + injection E as <- <-. now apply f_ul.
    + injection E as <- <-. apply f_idle.
Qed.

(** ** the heaps *)
Lemma part_lbl o g f v : (forall k, timers (f k) = []) -> part o (v :: lbl g f) = part o [v].
Proof. intro H. unfold part, timers. destruct g; [|reflexivity]. cbn [lbl flat_map]. specialize (H k). unfold timers in H. rewrite H. now rewrite app_nil_r. Qed.
Lemma heaps_same tr s o s' : heaps_ok tr s -> hp s' = hp s -> (forall p, part p o = []) -> heaps_ok (tr ++ o) s'.
Proof.
  intros [A B] Q P. split; rewrite Q; [|exact B]. intro p. rewrite part_app, P, app_nil_r. apply A.
Qed.
Lemma heaps_timer tr s p c h v o s' : heaps_ok tr s -> hstep (hp s p) c = Some (h, v) -> hp s' = fupd (hp s) p h ->
  on p v = true -> (forall q, part q o = filter (on q) [v]) -> heaps_ok (tr ++ o) s'.
Proof.
  intros [A B] S Q O P. destruct (A p) as (ops & R). split; rewrite Q.
  - intro q. rewrite part_app, P. unfold fupd. destruct (Nat.eqb_spec q p) as [->|N].
    + cbn [filter]. rewrite O. exists (ops ++ [c]). now apply (hrun_snoc _ _ _ _ _ _ R).
    + assert (X : on q v = false) by (destruct v; cbn in *; try apply Nat.eqb_eq in O; try (apply Nat.eqb_neq; congruence); discriminate). cbn [filter]. rewrite X, app_nil_r. apply A.
  - intros q x e. unfold fupd. destruct (Nat.eqb_spec q p) as [->|N]; [|apply B]. intro I. pose proof (C38_only_freed_cells_reused _ _ _ _ _ _ R S) as C. destruct v as [y f|y|y f n|n]; cbn [on] in O.
    + apply (Permutation_in _ C) in I. destruct I as [I|I]; [injection I as -> ->; now apply Nat.eqb_eq|exact (B _ _ _ I)].
    + destruct C as [C|(f & C)]; [rewrite C in I; exact (B _ _ _ I)|]. apply (B p x e). apply (Permutation_in _ (Permutation_sym C)). now right.
    + apply (B p x e). apply (Permutation_in _ (Permutation_sym C)). now right.
    + discriminate.
Qed.
Lemma heaps_eff tr s e o s' : heaps_ok tr s -> eff s e o s' -> heaps_ok (tr ++ o) s'.
Proof.
  intros H E. destruct E; try (apply (heaps_same _ _ _ _ H); [reflexivity|intro; try destruct g; reflexivity]).
  - eapply heaps_timer; [exact H|eassumption|reflexivity| |].
    + cbn [on]. apply Nat.eqb_eq. destruct (h_run _ _ H o) as (ops & R). match goal with X : hstep _ _ = _ |- _ => pose proof (C38_only_freed_cells_reused _ _ _ _ _ _ R X) as C end.
      apply (h_home _ _ H o x e). apply (Permutation_in _ (Permutation_sym C)). now left.
    + reflexivity.
  - eapply heaps_timer; [exact H|eassumption|reflexivity|cbn [on]; apply Nat.eqb_refl|]. intro q. now rewrite part_lbl.
  - eapply heaps_timer; [exact H|eassumption|reflexivity|cbn [on]; apply Nat.eqb_refl|]. reflexivity.
Qed.

(** ** locks and states *)
Definition inside (p : pc) : option nat := match p with Ck x _ | Pr x _ | Wk x _ | Dl x _ | Pf x | St x | Ul x => Some x | _ => None end.
Definition mid (p : pc) : option nat := match p with Wk x _ | Dl x _ | Pf x => Some x | _ => None end.
Definition setter (p : pc) : option nat := match p with T1 x _ _ | T2 x _ _ | T3 x _ _ => Some x | _ => None end.
Definition sender (p : pc) : bool := match p with Sp _ _ | Sx _ | Sq _ | Gone => true | _ => false end.
Definition open (z : Z) : Prop := z = RsNew \/ z = RsPending \/ z = RsInFly.
Lemma mid_inside p x : mid p = Some x -> inside p = Some x.
Proof. destruct p; cbn; congruence. Qed.

Record ctl (s : sys) : Prop := mkCtl {
  c_lock : forall x g, lock (rq s x) = Some g <-> inside (at_ s g) = Some x;
  c_prep : forall x, state (rq s x) = RsPrepared -> exists g, mid (at_ s g) = Some x;
  c_mid : forall g x, mid (at_ s g) = Some x -> state (rq s x) = RsPrepared;
  c_st : forall g x, at_ s g = St x -> state (rq s x) = RsPerformed;
  c_pr : forall g x c, at_ s g = Pr x c -> open (state (rq s x));
  c_states : forall x, open (state (rq s x)) \/ state (rq s x) = RsPrepared \/ state (rq s x) = RsPerformed;
  c_loop : forall o, setter (at_ s (L o)) = None /\ sender (at_ s (L o)) = false }.

Lemma one_inside s g g' x : ctl s -> inside (at_ s g) = Some x -> inside (at_ s g') = Some x -> g' = g.
Proof. intros C H H'. apply (c_lock _ C) in H, H'. congruence. Qed.
Lemma may_open s x a : may s x a = true -> open (state (rq s x)) \/ (open (state (rq s x)) \/ state (rq s x) = RsPrepared \/ state (rq s x) = RsPerformed) -> open (state (rq s x)).
Proof.
  intros M [H|H]; [exact H|]. destruct H as [H|[H|H]]; [exact H| |]; exfalso; destruct a; cbn [may] in M; rewrite H in M; discriminate.
Qed.
Lemma open_not z : open z -> z <> RsPrepared /\ z <> RsPerformed.
Proof. intros [->|[->| ->]]; split; discriminate. Qed.

(** a step that changes no lock and no state *)
Lemma ctl_move s g p : ctl s -> inside p = inside (at_ s g) -> mid p = mid (at_ s g) -> (forall x, p = St x -> state (rq s x) = RsPerformed) ->
  (forall x c, p = Pr x c -> open (state (rq s x))) -> (forall o, g = L o -> setter p = None /\ sender p = false) -> ctl (move s g p).
Proof.
  intros C I M S P O. split; cbn [rq at_ move].
  - intros x g'. rewrite (c_lock _ C x g'). unfold gupd. destruct (geq g' g) eqn:E; [apply geq_ok in E; subst; now rewrite I|reflexivity].
  - intros x H. destruct (c_prep _ C x H) as (g' & Q). exists g'. unfold gupd. destruct (geq g' g) eqn:E; [apply geq_ok in E; subst; congruence|exact Q].
  - intros g' x. unfold gupd. destruct (geq g' g) eqn:E; [rewrite M; apply geq_ok in E; subst|]; apply (c_mid _ C).
  - intros g' x. unfold gupd. destruct (geq g' g); [apply S|apply (c_st _ C)].
  - intros g' x c. unfold gupd. destruct (geq g' g); [apply P|apply (c_pr _ C)].
  - apply (c_states _ C).
  - intro o. unfold gupd. destruct (geq (L o) g) eqn:E; [apply geq_ok in E; now apply (O o)|apply (c_loop _ C)].
Qed.
(** a state that is open is set to another open one *)
Lemma ctl_open s x z : ctl s -> open (state (rq s x)) -> open z -> ctl (set_state s x z).
Proof.
  intros C O Z. destruct (open_not _ O) as [N1 N2]. destruct (open_not _ Z) as [N3 N4]. split; cbn [rq at_ set_state set_rq].
  - intros y g. rewrite <- (c_lock _ C y g). unfold fupd. destruct (Nat.eqb_spec y x) as [->|]; reflexivity.
  - intros y. unfold fupd. destruct (Nat.eqb_spec y x) as [->|]; [cbn; intro; contradiction|apply (c_prep _ C)].
  - intros g y H. unfold fupd. destruct (Nat.eqb_spec y x) as [->|]; [apply (c_mid _ C) in H; contradiction|now apply (c_mid _ C g)].
  - intros g y H. unfold fupd. destruct (Nat.eqb_spec y x) as [->|]; [apply (c_st _ C) in H; contradiction|now apply (c_st _ C g)].
  - intros g y c H. unfold fupd. destruct (Nat.eqb_spec y x) as [->|]; [exact Z|now apply (c_pr _ C g y c)].
  - intros y. unfold fupd. destruct (Nat.eqb_spec y x) as [->|]; [now left|apply (c_states _ C)].
  - apply (c_loop _ C).
Qed.
(** a goroutine inside sets the state of its request and moves on inside *)
Lemma ctl_inside s g x p z : ctl s -> inside (at_ s g) = Some x -> inside p = Some x ->
  (z = RsPrepared /\ mid p = Some x \/ z = RsPerformed /\ mid p = None \/ open z /\ mid p = None) ->
  (forall y, p = St y -> z = RsPerformed) -> (forall y c, p = Pr y c -> open z) -> ctl (move (set_state s x z) g p).
Proof.
  intros C I I' Z S P. assert (X : forall g', g' <> g -> inside (at_ s g') <> Some x) by (intros g' N H; apply N; exact (one_inside _ _ _ _ C I H)).
  assert (Y : forall q, inside q = Some x -> setter q = None /\ sender q = false) by (intros q; destruct q; cbn; try discriminate; auto).
  assert (V : forall y, p = St y \/ (exists c, p = Pr y c) -> y = x) by (intros y [->|(c & ->)]; cbn in I'; congruence).
  split; cbn [rq at_ move set_state set_rq].
  - intros y g'. transitivity (lock (rq s y) = Some g'); [unfold fupd; destruct (Nat.eqb_spec y x) as [->|]; reflexivity|]. rewrite (c_lock _ C y g'). unfold gupd. destruct (geq g' g) eqn:E; [apply geq_ok in E; subst; now rewrite I, I'|reflexivity].
  - intros y. unfold fupd. destruct (Nat.eqb_spec y x) as [->|N]; cbn [state].
    + intro H. exists g. rewrite gupd_same. destruct Z as [[_ Z]|[[Z _]|[Z _]]]; [exact Z|subst; discriminate|apply open_not in Z; tauto].
    + intro H. destruct (c_prep _ C y H) as (g' & Q). exists g'. rewrite gupd_other; [exact Q|]. intros ->. apply mid_inside in Q. congruence.
  - intros g' y. unfold gupd. destruct (geq g' g) eqn:E.
    + apply geq_ok in E. subst g'. intro H. pose proof (mid_inside _ _ H) as H'. rewrite I' in H'. injection H' as <-. rewrite fupd_same. cbn. destruct Z as [[Z _]|[[_ Z]|[_ Z]]]; congruence.
    + intro H. assert (y <> x). { intros ->. apply (X g'); [intros ->; rewrite geq_refl in E; discriminate|now apply mid_inside]. } rewrite fupd_other by assumption. now apply (c_mid _ C g').
  - intros g' y. unfold gupd. destruct (geq g' g) eqn:E; intro H.
    + rewrite (V y (or_introl H)), fupd_same. cbn. exact (S y H).
    + assert (y <> x). { intros ->. apply (X g'); [intros ->; rewrite geq_refl in E; discriminate|now rewrite H]. } rewrite fupd_other by assumption. now apply (c_st _ C g').
  - intros g' y c. unfold gupd. destruct (geq g' g) eqn:E; intro H.
    + rewrite (V y (or_intror (ex_intro _ c H))), fupd_same. cbn. exact (P y c H).
    + assert (y <> x). { intros ->. apply (X g'); [intros ->; rewrite geq_refl in E; discriminate|now rewrite H]. } rewrite fupd_other by assumption. now apply (c_pr _ C g' y c).
  - intros y. unfold fupd. destruct (Nat.eqb_spec y x) as [->|]; [cbn; tauto|apply (c_states _ C)].
  - intro o. unfold gupd. destruct (geq (L o) g) eqn:E; [exact (Y p I')|apply (c_loop _ C)].
Qed.
Lemma ctl_take s g x a : ctl s -> at_ s g = Lk x a -> lock (rq s x) = None -> ctl (move (set_lock s x (Some g)) g (Ck x a)).
Proof.
  intros C A N. split; cbn [rq at_ move set_lock set_rq].
  - intros y g'. unfold fupd, gupd. destruct (Nat.eqb_spec y x) as [->|M]; cbn [lock].
    + destruct (geq g' g) eqn:E; [apply geq_ok in E; subst; cbn; split; congruence|]. split; intro H; [exfalso; injection H as ->; rewrite geq_refl in E; discriminate|]. apply (c_lock _ C) in H. congruence.
    + destruct (geq g' g) eqn:E; [|apply (c_lock _ C)]. apply geq_ok in E. subst. cbn. split; intro H; [|congruence]. apply (c_lock _ C) in H. rewrite A in H. discriminate.
  - intros y H. assert (H' : state (rq s y) = RsPrepared) by (revert H; unfold fupd; destruct (Nat.eqb_spec y x) as [->|]; trivial). destruct (c_prep _ C y H') as (g' & Q). exists g'. rewrite gupd_other; [exact Q|]. intros ->. rewrite A in Q. discriminate.
  - intros g' y. unfold gupd. destruct (geq g' g); [discriminate|]. intro H. apply (c_mid _ C) in H. unfold fupd. destruct (Nat.eqb_spec y x) as [->|]; exact H.
  - intros g' y. unfold gupd. destruct (geq g' g); [discriminate|]. intro H. apply (c_st _ C) in H. unfold fupd. destruct (Nat.eqb_spec y x) as [->|]; exact H.
  - intros g' y c. unfold gupd. destruct (geq g' g); [discriminate|]. intro H. apply (c_pr _ C) in H. unfold fupd. destruct (Nat.eqb_spec y x) as [->|]; exact H.
  - intros y. pose proof (c_states _ C y) as H. unfold fupd. destruct (Nat.eqb_spec y x) as [->|]; exact H.
  - intro o. unfold gupd. destruct (geq (L o) g); [split; reflexivity|apply (c_loop _ C)].
Qed.
Lemma ctl_leave s g x : ctl s -> at_ s g = Ul x -> ctl (move (set_lock s x None) g Free).
Proof.
  intros C A. assert (I : inside (at_ s g) = Some x) by now rewrite A. split; cbn [rq at_ move set_lock set_rq].
  - intros y g'. unfold fupd, gupd. destruct (Nat.eqb_spec y x) as [->|M]; cbn [lock].
    + destruct (geq g' g) eqn:E; [cbn; split; discriminate|]. split; [discriminate|]. intro H. pose proof (one_inside _ _ _ _ C I H). subst. rewrite geq_refl in E. discriminate.
    + destruct (geq g' g) eqn:E; [|apply (c_lock _ C)]. apply geq_ok in E. subst. cbn. split; intro H; [|discriminate]. apply (c_lock _ C) in H. rewrite I in H. congruence.
  - intros y H. assert (H' : state (rq s y) = RsPrepared) by (revert H; unfold fupd; destruct (Nat.eqb_spec y x) as [->|]; trivial). destruct (c_prep _ C y H') as (g' & Q). exists g'. rewrite gupd_other; [exact Q|]. intros ->. rewrite A in Q. discriminate.
  - intros g' y. unfold gupd. destruct (geq g' g); [discriminate|]. intro H. apply (c_mid _ C) in H. unfold fupd. destruct (Nat.eqb_spec y x) as [->|]; exact H.
  - intros g' y. unfold gupd. destruct (geq g' g); [discriminate|]. intro H. apply (c_st _ C) in H. unfold fupd. destruct (Nat.eqb_spec y x) as [->|]; exact H.
  - intros g' y c. unfold gupd. destruct (geq g' g); [discriminate|]. intro H. apply (c_pr _ C) in H. unfold fupd. destruct (Nat.eqb_spec y x) as [->|]; exact H.
  - intros y. pose proof (c_states _ C y) as H. unfold fupd. destruct (Nat.eqb_spec y x) as [->|]; exact H.
  - intro o. unfold gupd. destruct (geq (L o) g); [split; reflexivity|apply (c_loop _ C)].
Qed.
Lemma ctl_hp s o h : ctl s -> ctl (set_hp s o h).
Proof. intros [A B C D E F G]. split; assumption. Qed.
Lemma ctl_tset s x : ctl s -> ctl (set_tset s x).
Proof.
  intros C. assert (Q : forall y, state (fupd (rq s) x (mkRq (state (rq s x)) (lock (rq s x)) true) y) = state (rq s y)) by (intro y; unfold fupd; destruct (Nat.eqb_spec y x) as [->|]; reflexivity).
  split; cbn [rq at_ set_tset set_rq].
  - intros y g. rewrite <- (c_lock _ C y g). unfold fupd. destruct (Nat.eqb_spec y x) as [->|]; reflexivity.
  - intros y. rewrite Q. apply (c_prep _ C).
  - intros g y. rewrite Q. apply (c_mid _ C).
  - intros g y. rewrite Q. apply (c_st _ C).
  - intros g y c. rewrite Q. apply (c_pr _ C).
  - intros y. rewrite Q. apply (c_states _ C).
  - apply (c_loop _ C).
Qed.
Lemma loop_not s g : ctl s -> setter (at_ s g) <> None \/ sender (at_ s g) = true -> exists k, g = U k.
Proof. intros C H. destruct g as [k|o]; [eauto|]. destruct (c_loop _ C o) as [A B]. destruct H; congruence. Qed.

Ltac easy_move A := apply ctl_move; [assumption|rewrite A; reflexivity|rewrite A; reflexivity|intros; discriminate|intros; discriminate|].
Lemma ctl_eff s e o s' : ctl s -> eff s e o s' -> ctl s'.
Proof.
  intros C E. destruct E; trivial.
  - easy_move H. intros; discriminate.
  - easy_move H. intros; discriminate.
  - easy_move H. intros; discriminate.
  - apply ctl_open; [assumption|now left|right; now left].
  - apply ctl_open; [assumption|right; now left|right; now right].
  - apply ctl_inside; [assumption|now rewrite H|reflexivity| |intros; discriminate|intros; discriminate]. right. right. split; [|reflexivity]. subst z. destruct new; [now left|right; now left].
  - apply ctl_move; [now apply ctl_hp|cbn; now rewrite H|cbn; now rewrite H|intros; discriminate|intros; discriminate|split; reflexivity].
  - destruct (loop_not s g C) as (k & ->); [right; now rewrite H|]. apply ctl_move; [apply ctl_open; [assumption|now left|right; now left]|cbn; now rewrite H|cbn; now rewrite H|intros; discriminate|intros; discriminate|intros; discriminate].
  - destruct (loop_not s g C) as (k & ->); [right; now rewrite H|]. easy_move H. intros; discriminate.
  - easy_move H. split; reflexivity.
  - destruct (loop_not s g C) as (k & ->); [right; now rewrite H|]. easy_move H. intros; discriminate.
  - destruct (loop_not s g C) as (k & ->); [left; rewrite H; discriminate|]. easy_move H. intros; discriminate.
  - destruct (loop_not s g C) as (k & ->); [left; rewrite H; discriminate|]. destruct b; easy_move H; intros; discriminate.
  - destruct (loop_not s g C) as (k & ->); [left; rewrite H; discriminate|]. apply ctl_move; [now apply ctl_tset|cbn; now rewrite H|cbn; now rewrite H|intros; discriminate|intros; discriminate|intros; discriminate].
  - destruct (loop_not s g C) as (k & ->); [left; rewrite H; discriminate|]. destruct b; (apply ctl_move; [now apply ctl_hp|cbn; now rewrite H|cbn; now rewrite H|intros; discriminate|intros; discriminate|intros; discriminate]).
  - easy_move H. split; reflexivity.
  - easy_move H. split; reflexivity.
  - now apply ctl_take.
  - apply ctl_move; [assumption|now rewrite H|now rewrite H|intros; discriminate| |split; reflexivity]. intros y c Q. injection Q as <- <-. eapply may_open; [eassumption|right; apply (c_states _ C)].
  - easy_move H. split; reflexivity.
  - apply ctl_inside; [assumption|now rewrite H|reflexivity|now left|intros; discriminate|intros; discriminate].
  - easy_move H. split; reflexivity.
  - easy_move H. split; reflexivity.
  - apply ctl_inside; [assumption|now rewrite H|reflexivity|right; left; split; reflexivity|reflexivity|intros; discriminate].
  - apply ctl_move; [now apply ctl_hp|cbn; now rewrite H|cbn; now rewrite H|intros; discriminate|intros; discriminate|split; reflexivity].
  - now apply ctl_leave.
Qed.
End Due.
