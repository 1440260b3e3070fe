(** C120: a request with a timeout is answered. C121: a completed request holds no timer. C122: no timeout before
    its time. *)
From Coq Require Import ZArith List Bool Arith Lia.
Import ListNotations.
From Verif Require Import RequestModel.
From Verif Require Import TimerModel TimerSpec TimerProps DueModel DueSpec DueProofs DueTrace DueStory DueRest.
Open Scope Z_scope.

(** ** C120 *)
(** When the clock is past the deadline of a request and every goroutine has come to rest, its Responder has been
    called, once; provided that no bookmark re-armed it, that Responders return and that SetTimeout is not called on one
    request by two goroutines at once. *)
Theorem C120_timeout_is_kept_partial : forall home blocks es tr s now x e,
  run home blocks init es = (tr, s) -> one_at_a_time tr -> (forall y, blocks y = false) -> quiet home blocks now s ->
  deadline tr x e -> e < now -> ~ In (ORearm x) tr -> exists c, delivered tr x = [c].
Proof.
  intros home blocks es tr s now x e R O B Q D L NR. destruct (good_run _ _ _ _ _ R) as [C H K Y]. destruct (kept_run _ _ _ _ _ R O) as [SE KE].
  assert (N : delivered tr x <> []).
  { destruct (k_due _ _ _ KE x e D) as [A|[A|[A|(g & A)]]]; [|contradiction|exact A|].
    - apply (live_armed home tr s x e H KE) in A. pose proof (nothing_due _ _ _ _ _ C H B Q _ _ _ A). lia.
    - destruct (rest _ _ _ _ _ C H B Q g) as [F|F]; rewrite F in A; discriminate. }
  destruct (K x) as [[A _]|[A _]]; [contradiction|exact A].
Qed.
Print Assumptions C120_timeout_is_kept_partial.
(** The goroutines do come to rest: whatever they have to do takes them finitely many steps, however they are scheduled
    and whatever their clocks read; no two of them wait for each other. *)
Theorem C120_comes_to_rest : forall home blocks es tr s,
  run home blocks init es = (tr, s) -> exists bound, forall es', effective home blocks s es' -> (length es' <= bound)%nat.
Proof.
  intros home blocks es tr s R. destruct (fin_run _ _ _ _ _ R) as (N & M & F). exists (work N M s). intros es' E. exact (effective_bound _ _ _ _ _ _ _ (g_heaps _ _ _ _ (good_run _ _ _ _ _ R)) F E).
Qed.
Print Assumptions C120_comes_to_rest.
(** At rest nobody is left inside a call: every goroutine is in no call, or has panicked in Send. *)
Theorem C120_no_deadlock_partial : forall home blocks es tr s now,
  run home blocks init es = (tr, s) -> (forall y, blocks y = false) -> quiet home blocks now s ->
  forall g, at_ s g = Free \/ at_ s g = Gone /\ exists k, g = U k /\ In (OPanic k) tr.
Proof.
  intros home blocks es tr s now R B Q g. destruct (good_run _ _ _ _ _ R) as [C H K Y].
  destruct (rest _ _ _ _ _ C H B Q g) as [F|F]; [now left|right]. split; [exact F|]. clear H K Y Q. revert tr s R C F. induction es as [|e es IH] using rev_ind; intros tr s R C F; [injection R as <- <-; discriminate|].
  destruct (run_snoc _ _ _ _ _ _ _ R) as (t & s1 & o & R1 & S & ->). pose proof (good_run _ _ _ _ _ R1) as G. pose proof (step_eff _ _ _ _ _ _ _ (g_heaps _ _ _ _ G) S) as E.
  assert (D : at_ s1 g = Gone \/ at_ s1 g <> Gone) by (destruct (at_ s1 g); auto; right; discriminate). destruct D as [D|D].
  - destruct (IH _ _ R1 (g_ctl _ _ _ _ G) D) as (k & -> & I). exists k. split; [reflexivity|]. apply in_app_iff. now left.
  - destruct E; try contradiction; cbn [at_ move set_state set_lock set_tset set_rq set_hp] in F; try (exfalso; unfold gupd in F; destruct (geq g _) in F; [try destruct b; discriminate|contradiction]); try (elim D; exact F).
    unfold gupd in F. destruct (geq g g0) eqn:EQ; [|contradiction]. apply geq_ok in EQ. subst g0. destruct (loop_not s1 g (g_ctl _ _ _ _ G)) as (k & ->); [right; match goal with A : at_ s1 g = _ |- _ => now rewrite A end|]. exists k. split; [reflexivity|]. apply in_app_iff. right. now left.
Qed.
Print Assumptions C120_no_deadlock_partial.

(** ** C121 *)
(** When the call that completed a request has returned, the timer the request was given before is off. *)
Theorem C121_completed_requests_hold_no_timer_partial : forall home blocks es tr s a g x c b e,
  run home blocks init es = (tr, s) -> one_at_a_time tr -> tr = a ++ ODeliver g x c :: b -> deadline a x e -> In (ODone g x) b ->
  armed (timers tr) x = None /\ forall o f, ~ In (x, f) (live_cells (hp s o)).
Proof.
  intros home blocks es tr s a g x c b e R O Q D I. destruct (good_run _ _ _ _ _ R) as [C H K Y]. destruct (kept_run _ _ _ _ _ R O) as [SE KE].
  assert (A : armed (timers tr) x = None) by (destruct (k_late _ _ _ KE _ _ _ _ _ _ Q D) as [A|[_ A]]; [exact A|contradiction]). split; [exact A|].
  intros o f L. pose proof (h_home _ _ _ H _ _ _ L) as <-. apply (live_armed home tr s x f H KE) in L. congruence.
Qed.
Print Assumptions C121_completed_requests_hold_no_timer_partial.

(** ** C122 *)
(** A Responder is called with a code somebody gave, or with RcTimeout; the latter only after SetTimeout (or Send) was
    called with a positive duration, and when a clock has gone further than that since. *)
Theorem C122_no_timeout_before_its_time : forall home blocks es tr s a g x c b,
  run home blocks init es = (tr, s) -> tr = a ++ ODeliver g x c :: b ->
  (exists k, In (ORespond k x c) a) \/
  c = RcTimeout /\ exists k d clock n, 0 < d /\ clock + d < n /\ In (OSetTimeout k x d) a /\ In (EGo (U k) clock) es /\ In (OTimer (Fired x (clock + d) n)) a.
Proof.
  intros home blocks es tr s a g x c b R Q. destruct (good_run _ _ _ _ _ R) as [C H K Y]. destruct (y_del _ _ _ Y _ _ _ _ _ Q) as [S|[E (e & n & I)]]; [now left|right]. split; [exact E|].
  apply in_split in I. destruct I as (a1 & a2 & ->). rewrite <- app_assoc in Q. destruct (y_fired _ _ _ Y _ _ _ _ _ Q) as [L D]. apply in_split in D. destruct D as (a3 & a4 & ->). rewrite <- app_assoc in Q. cbn [app] in Q.
  destruct (y_armed _ _ _ Y _ _ _ _ Q) as (k & d & clock & P & -> & I & J). exists k, d, clock, n. split; [exact P|]. split; [exact L|]. split; [rewrite !in_app_iff; auto|]. split; [exact J|]. apply in_elt.
Qed.
Print Assumptions C122_no_timeout_before_its_time.

(** ** examples *)
(** a check, by computation, that nothing is left to do for g *)
Definition idle_b (blocks : nat -> bool) (s : sys) (g : gor) (now : Z) : bool :=
  match at_ s g with
  | Free => match g with U _ => true | L o => match hstep (hp s o) (Pop now) with Some (_, Asleep n) => n =? now | _ => false end end
  | Lk x _ => match lock (rq s x) with Some _ => true | None => false end
  | Dl x _ => blocks x
  | _ => false
  end.
Lemma idle_b_ok home blocks s g now : idle_b blocks s g now = true -> idle home blocks s (EGo g now).
Proof.
  unfold idle_b, idle. cbn [step]. unfold go. destruct (at_ s g) as [|x|x|x d|x d|x d|x|x a|x a|x a|x c|x c|x|x|x|] eqn:A; try discriminate.
  - destruct g as [k|o]; [now left|]. destruct (hstep (hp s o) (Pop now)) as [[h [] ]|]; try discriminate. intro E. apply Z.eqb_eq in E. subst. right. now exists now.
  - destruct (lock (rq s x)); [now left|discriminate].
  - intros ->. now left.
Qed.
Fixpoint one_b (sett : list nat) (tr : list obs) : bool :=
  match tr with
  | [] => true
  | OSetTimeout _ x _ :: tr => negb (existsb (Nat.eqb x) sett) && one_b (x :: sett) tr
  | OTimeoutSet _ x :: tr => one_b (filter (fun y => negb (Nat.eqb x y)) sett) tr
  | _ :: tr => one_b sett tr
  end.
Lemma one_b_ok tr : forall sett n, (forall x, n x = 0%nat \/ In x sett) -> (forall x, n x <= 1)%nat -> one_b sett tr = true ->
  forall pre k x d post, tr = pre ++ OSetTimeout k x d :: post -> fold_left (upd_setting x) pre (n x) = 0%nat.
Proof.
  induction tr as [|b tr IH]; intros sett n HN H1 B pre k x d post E; [destruct pre; discriminate|]. destruct pre as [|b' pre]; cbn in E; injection E as -> E.
  - cbn [one_b] in B. apply andb_prop in B. destruct B as [B _]. cbn. destruct (HN x) as [Z|Z]; [exact Z|]. exfalso. apply negb_true_iff in B. assert (existsb (Nat.eqb x) sett = true) by (apply existsb_exists; exists x; split; [exact Z|apply Nat.eqb_refl]). congruence.
  - cbn [fold_left]. set (n' := fun y => upd_setting y (n y) b'). change (upd_setting x (n x) b') with (n' x).
    destruct b' as [j y e|j y| | | | | | | |]; cbn [one_b] in B; try (eapply (IH sett n'); [exact HN|exact H1|exact B|exact E]).
    + apply andb_prop in B. destruct B as [B0 B]. eapply (IH (y :: sett) n'); [| |exact B|exact E].
      * intro z. unfold n'. cbn [upd_setting]. destruct (Nat.eqb_spec y z) as [->|]; [right; now left|]. destruct (HN z); [now left|right; now right].
      * intro z. unfold n'. cbn [upd_setting]. destruct (Nat.eqb_spec y z) as [->|]; [|apply H1]. destruct (HN z) as [->|I]; [lia|]. exfalso. apply negb_true_iff in B0. assert (existsb (Nat.eqb z) sett = true) by (apply existsb_exists; exists z; split; [exact I|apply Nat.eqb_refl]). congruence.
    + eapply (IH _ n'); [| |exact B|exact E].
      * intro z. unfold n'. cbn [upd_setting]. destruct (Nat.eqb_spec y z) as [->|N]; [left; specialize (H1 z); lia|]. destruct (HN z) as [|I]; [now left|right]. apply filter_In. split; [exact I|]. now apply negb_true_iff, Nat.eqb_neq.
      * intro z. unfold n'. cbn [upd_setting]. specialize (H1 z). destruct (Nat.eqb y z); lia.
Qed.
Lemma one_b_all tr : one_b [] tr = true -> one_at_a_time tr.
Proof. intros B pre k x d post E. unfold setting. apply (one_b_ok tr [] (fun _ => 0%nat) ltac:(now left) ltac:(auto) B pre k x d post E). Qed.

Definition h0 (x : nat) : nat := 0%nat.
Definition none (x : nat) : bool := false.
Definition goes (g : gor) (now : Z) (n : nat) : list ev := repeat (EGo g now) n.
(** two requests are sent at 100, with timeouts 10 and 50; the second is answered, the first is not *)
Definition ex : list ev :=
  ESend 0 1 10 :: goes (U 0) 100 5 ++ ESend 1 2 50 :: goes (U 1) 100 5 ++ [EFly 2; ERespond 1 2 (Bytes 0)] ++ goes (U 1) 105 8 ++ goes (L 0) 120 9.
Ltac at_rest := let g := fresh "g" in intro g; apply idle_b_ok; destruct g as [[|[|[|k]]]|[|o]]; vm_compute; reflexivity.
Example C120_ex : exists tr s, run h0 none init ex = (tr, s) /\ one_at_a_time tr /\ quiet h0 none 120 s /\
  deadline tr 1 110 /\ ~ In (ORearm 1) tr /\ delivered tr 1 = [RcTimeout] /\ deadline tr 2 150 /\ delivered tr 2 = [0] /\
  exists a b, tr = a ++ ODeliver (U 1) 2 0 :: b /\ deadline a 2 150 /\ In (ODone (U 1) 2) b.
Proof.
  exists (fst (run h0 none init ex)), (snd (run h0 none init ex)). split; [apply surjective_pairing|]. 
  assert (T : fst (run h0 none init ex) = [OSetTimeout 0 1 10; OTimer (Armed 1 110); OTimeoutSet 0 1; OPush 1; OSetTimeout 1 2 50; OTimer (Armed 2 150); OTimeoutSet 1 2; OPush 2;
     ORespond 1 2 0; ODeliver (U 1) 2 0; OTimer (Stopped 2); ODone (U 1) 2; OTimer (Fired 1 110 120); ODeliver (L 0) 1 RcTimeout; OTimer (Stopped 1); ODone (L 0) 1]) by (vm_compute; reflexivity).
  split; [apply one_b_all; rewrite T; reflexivity|]. split; [at_rest|]. rewrite T. clear T.
  split; [cbn; auto|]. split; [cbn; intuition discriminate|]. split; [reflexivity|]. split; [cbn; auto 10|]. split; [reflexivity|].
  exists [OSetTimeout 0 1 10; OTimer (Armed 1 110); OTimeoutSet 0 1; OPush 1; OSetTimeout 1 2 50; OTimer (Armed 2 150); OTimeoutSet 1 2; OPush 2; ORespond 1 2 0]. eexists. split; [reflexivity|]. split; cbn; auto 10.
Qed.

(** What is missing from C120. A Responder that puts the request back (a middleware which sends it again after it got
    RcTimeout) leaves it without a timer: timerSet stays true, so SetTimeout does nothing any more. *)
Definition ex_rearm : list ev :=
  ESend 0 1 10 :: goes (U 0) 100 5 ++ goes (L 0) 120 4 ++ ERearm (L 0) false :: goes (L 0) 120 1 ++ ESetTimeout 0 1 10 :: goes (U 0) 130 3.
Theorem C120_rearmed_refuted : ~ (forall home es tr s x e now,
  run home none init es = (tr, s) -> one_at_a_time tr -> quiet home none now s -> deadline tr x e -> e < now -> delivered tr x <> []).
Proof.
  intro F. refine (F h0 ex_rearm (fst (run h0 none init ex_rearm)) (snd (run h0 none init ex_rearm)) 1%nat 110 1000 (surjective_pairing _) _ _ _ _ _); [apply one_b_all; vm_compute; reflexivity|at_rest|unfold deadline; vm_compute; auto|lia|vm_compute; reflexivity].
Qed.
Print Assumptions C120_rearmed_refuted.

(** A Responder that blocks stops the loop of its heap: nobody's timeout on this heap comes any more. *)
Definition ex_blocked : list ev :=
  ESend 0 1 10 :: goes (U 0) 100 5 ++ ESend 1 2 20 :: goes (U 1) 100 5 ++ goes (L 0) 120 5.
Theorem C120_blocked_refuted : ~ (forall home blocks es tr s x e now,
  run home blocks init es = (tr, s) -> one_at_a_time tr -> quiet home blocks now s -> deadline tr x e -> e < now -> ~ In (ORearm x) tr -> blocks x = false -> delivered tr x <> []).
Proof.
  intro F. refine (F h0 (Nat.eqb 1) ex_blocked (fst (run h0 (Nat.eqb 1) init ex_blocked)) (snd (run h0 (Nat.eqb 1) init ex_blocked)) 2%nat 120 1000 (surjective_pairing _) _ _ _ _ _ _ _); [apply one_b_all; vm_compute; reflexivity|at_rest|unfold deadline; vm_compute; auto 10|lia|vm_compute; intuition discriminate|reflexivity|vm_compute; reflexivity].
Qed.
Print Assumptions C120_blocked_refuted.

(** What is missing from C121. Cancel comes in after Send's SetPending and before its SetTimeout: the request is over,
    and its timer is set afterwards. *)
Definition ex_late : list ev :=
  ESend 0 1 10 :: goes (U 0) 100 1 ++ ERespond 1 1 (Fail RcCanceled) :: goes (U 1) 100 8 ++ goes (U 0) 100 4.
Theorem C121_late_refuted : ~ (forall home es tr s a g x c b,
  run home none init es = (tr, s) -> one_at_a_time tr -> tr = a ++ ODeliver g x c :: b -> In (ODone g x) b ->
  forall o f, ~ In (x, f) (live_cells (hp s o))).
Proof.
  intro F. refine (F h0 ex_late (fst (run h0 none init ex_late)) (snd (run h0 none init ex_late)) [OSetTimeout 0 1 10; ORespond 1 1 RcCanceled] (U 1) 1%nat RcCanceled [OTimer (Stopped 1); ODone (U 1) 1; OTimer (Armed 1 110); OTimeoutSet 0 1] (surjective_pairing _) _ _ _ 0%nat 110 _); [apply one_b_all; vm_compute; reflexivity|vm_compute; reflexivity|cbn; auto|vm_compute; auto].
Qed.
Print Assumptions C121_late_refuted.

(** Two SetTimeout at once: both find timerSet false, two timers are armed, Stop takes one away. *)
Definition ex_twice : list ev :=
  [ESetTimeout 0 1 10; ESetTimeout 1 1 20] ++ goes (U 0) 100 1 ++ goes (U 1) 100 3 ++ goes (U 0) 100 2 ++ ERespond 2 1 (Fail RcCanceled) :: goes (U 2) 100 8.
Theorem C121_twice_refuted : ~ (forall home es tr s a g x c b e,
  run home none init es = (tr, s) -> tr = a ++ ODeliver g x c :: b -> deadline a x e -> In (ODone g x) b ->
  forall o f, ~ In (x, f) (live_cells (hp s o))).
Proof.
  intro F. refine (F h0 ex_twice (fst (run h0 none init ex_twice)) (snd (run h0 none init ex_twice)) [OSetTimeout 0 1 10; OSetTimeout 1 1 20; OTimer (Armed 1 120); OTimeoutSet 1 1; OTimer (Armed 1 110); OTimeoutSet 0 1; ORespond 2 1 RcCanceled] (U 2) 1%nat RcCanceled [OTimer (Stopped 1); ODone (U 2) 1] 110 (surjective_pairing _) _ _ _ 0%nat 120 _); [vm_compute; reflexivity|unfold deadline; cbn; auto 10|cbn; auto|vm_compute; auto].
Qed.
Print Assumptions C121_twice_refuted.
