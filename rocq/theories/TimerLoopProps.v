(** The timer loop: C69 (no lost wake-up), refuted in general and proved under a scheduling assumption. *)
From Coq Require Import ZArith List Bool Arith Lia Permutation.
Import ListNotations.
From Verif Require Import TimerModel TimerSpec TimerProofs TimerInv TimerLoopModel.
Open Scope Z_scope.

Definition waked (s : lst) : Prop :=
  exists t, lrt s = Some t /\ forall x e, In (x, e) (live_cells (lh s)) -> t <= e + llag s.
Definition LI (strict : bool) (s : lst) : Prop :=
  (exists T fl, Inv (lh s) T fl) /\
  (strict = true -> lpc_ s = LArmed \/ lpc_ s = LWaiting -> waked s).

Lemma sub_waked h h' pc pc' rt lag c : (forall a, In a (live_cells h') -> In a (live_cells h)) ->
  waked (mkL h pc rt lag c) -> waked (mkL h' pc' rt lag c).
Proof. intros S (t & E & B). exists t. split; auto. cbn [lh llag] in *. intros x e I. apply (B x). apply S. exact I. Qed.

Lemma live_sub h T fl h' T' fl' i x e : Inv h T fl -> Inv h' T' fl' -> Permutation (oents T) ((i, x, e) :: oents T') ->
  forall a, In a (live_cells h') -> In a (live_cells h).
Proof.
  intros I I' P [y f] J. apply (live_iff _ _ _ _ _ I') in J. destruct J as (j & J).
  apply (live_iff _ _ _ _ _ I). exists j. eapply Permutation_in; [apply Permutation_sym; exact P|right; exact J].
Qed.

Lemma LI_step strict s a : LI strict s -> exists s', lstep strict s a = Some s' /\ LI strict s'.
Proof.
  intros [(T & fl & I) W]. destruct s as [h pc rt lag clk]. cbn [lh lpc_] in *.
  destruct a as [d| | |x d|x]; cbn [lstep lh lpc_ lrt llag lclock].
  - eexists. split; [reflexivity|]. split; [exists T, fl; exact I|]. cbn [lpc_]. intros S P. destruct (W S P) as (t & E & B).
    exists t. auto.
  - destruct pc as [|now rechk|y now| | |].
    + eexists. split; [reflexivity|]. split; [exists T, fl; exact I|]. intros _ [Q|Q]; discriminate.
    + rewrite (inv_size _ _ _ I). destruct T as [t|].
      * rewrite (proj2 (Z.eqb_neq _ _)) by (destruct t; simpl; lia).
        destruct (inv_top _ _ _ I) as (Tp & R & O).
        assert (Lt : (0 < root t < hlen h)%nat) by (eapply inv_in; [exact I|apply in_or_app; left; apply root_in]).
        rewrite Tp, get_ok by lia. rewrite (rep_key _ _ R). pose proof (ord_ents _ O) as OE. rewrite Forall_forall in OE.
        destruct (Z.leb_spec now (key t)).
        -- destruct rechk; (eexists; split; [reflexivity|]; split; [exists (Some t), fl; exact I|]); intros _ [Q|Q]; try discriminate.
           exists (clk + (key t - now)). split; auto. cbn [lh llag]. intros x e J. apply (live_iff _ _ _ _ _ I) in J. destruct J as (i & J).
           specialize (OE _ J). cbn [snd] in OE. lia.
        -- destruct (key_in t) as (x & J). destruct (remove_ok _ _ _ _ _ _ I J) as (h' & T' & E' & I' & P & _).
           rewrite E'. destruct (rep_cell _ _ _ _ _ R J) as [X1 X2]. rewrite X1.
           eexists. split; [reflexivity|]. split; [exists T', (root t :: fl); exact I'|]. intros _ [Q|Q]; discriminate.
      * simpl (Z.of_nat _ =? 0). eexists. split; [reflexivity|]. split; [exists None, fl; exact I|]. intros _ _.
        exists (clk + hour). split; auto. cbn [lh]. intros x e J. apply (live_iff _ _ _ _ _ I) in J. destruct J as (i & []).
    + eexists. split; [reflexivity|]. split; [exists T, fl; exact I|]. intros _ [Q|Q]; discriminate.
    + eexists. split; [reflexivity|]. split; [exists T, fl; exact I|]. intros S _. destruct (W S (or_introl eq_refl)) as (t & E & B). exists t. auto.
    + eexists. split; [reflexivity|]. split; [exists T, fl; exact I|]. auto.
    + eexists. split; [reflexivity|]. split; [exists T, fl; exact I|]. intros _ [Q|Q]; discriminate.
  - destruct rt as [t|]; [|eexists; split; [reflexivity|]; split; [exists T, fl; exact I|auto]].
    destruct (t <=? clk); [|eexists; split; [reflexivity|]; split; [exists T, fl; exact I|auto]].
    destruct pc as [|now rechk|y now| | |];
      try (eexists; split; [reflexivity|]; split; [exists T, fl; exact I|]; intros _ [Q|Q]; discriminate).
    destruct strict; (eexists; split; [reflexivity|]; split; [exists T, fl; exact I|]); auto. discriminate.
  - destruct (lock_free pc) eqn:LF; [|eexists; split; [reflexivity|]; split; [exists T, fl; exact I|auto]].
    destruct (push_ok h T fl x (clk + d) I) as (h' & T' & fl' & i & b & E & I' & P & NI & Ti & Eb). rewrite E.
    eexists. split; [reflexivity|]. split; [exists (Some T'), fl'; exact I'|]. cbn [lpc_].
    intros S Q. assert (Pc : pc = LWaiting /\ b = false).
    { destruct b, pc; cbn [lsignal lock_free] in *; destruct Q; try discriminate; auto. }
    destruct Pc as [-> Bf]. subst b. destruct T as [t0|]; [|discriminate Bf]. apply Z.ltb_ge in Bf.
    destruct (W S (or_intror eq_refl)) as (t & E1 & B). exists t. split; auto. cbn [lh llag] in *. intros y f J.
    apply (live_iff _ _ _ _ _ I') in J. destruct J as (j & J). cbn [oents] in J. eapply Permutation_in in J; [|exact P].
    destruct J as [J|J].
    + injection J as <- <- <-. destruct (key_in t0) as (z & Jz).
      assert (t <= key t0 + lag) by (eapply B; apply (live_iff _ _ _ _ _ I); exists (root t0); exact Jz). lia.
    + eapply B. apply (live_iff _ _ _ _ _ I). exists j. exact J.
  - destruct (lock_free pc) eqn:LF; [|eexists; split; [reflexivity|]; split; [exists T, fl; exact I|auto]].
    destruct (hstep_ok h T fl (Stop x) I) as (h' & T' & fl' & ev & E & I' & _ & C). rewrite E.
    eexists. split; [reflexivity|]. split; [exists T', fl'; exact I'|]. cbn [lpc_]. intros S Q. specialize (W S Q).
    destruct (Nat.eqb (ti h x) 0).
    + destruct C as [-> _]. destruct W as (t & E1 & B). exists t. split; auto. cbn [lh llag] in *. intros y f J.
      apply (B y). apply (live_iff _ _ _ _ _ I') in J. apply (live_iff _ _ _ _ _ I). exact J.
    + destruct C as (e & P & _). eapply sub_waked; [eapply (live_sub _ _ _ _ _ _ _ _ _ I I' P)|exact W].
Qed.

Lemma LI_run strict acts : forall s, LI strict s -> exists s', lrun strict s acts = Some s' /\ LI strict s'.
Proof.
  induction acts as [|a acts IH]; intros s L; cbn [lrun]; [eauto|].
  destruct (LI_step strict s a L) as (s1 & E & L1). rewrite E. auto.
Qed.
Lemma LI_init strict t0 : LI strict (linit t0).
Proof. split; [exists None, []; apply inv_init|]. intros _ [Q|Q]; discriminate. Qed.

(** In every interleaving of the loop, clients, clock and runtime timer nothing panics. *)
Theorem C69_timer_loop_never_panics : forall strict t0 acts, exists s, lrun strict (linit t0) acts = Some s.
Proof. intros strict t0 acts. destruct (LI_run strict acts _ (LI_init strict t0)) as (s & E & _). eauto. Qed.

(** The full property: whenever the loop sleeps, the runtime timer is pending and set to fire no later
    than the earliest armed deadline plus the time between sampling the clock and setting the timer. *)
Definition no_lost_wakeup (strict : bool) : Prop := forall t0 acts s, lrun strict (linit t0) acts = Some s -> lpc_ s = LWaiting ->
  exists t, lrt s = Some t /\ forall x e, In (x, e) (live_cells (lh s)) -> t <= e + llag s.

(** It holds as long as the runtime timer does not fire between t.Reset and c.Wait. *)
Theorem C69_no_lost_wakeup_partial : no_lost_wakeup true.
Proof.
  intros t0 acts s E P. destruct (LI_run true acts _ (LI_init true t0)) as (s' & E' & [_ W]). rewrite E in E'. injection E' as <-.
  apply W; auto.
Qed.

(** The code does not ensure that: AfterFunc signals without the mutex. The loop then sleeps with an
    overdue timer and nothing left to wake it. *)
Definition obs (s : lst) := (lpc_ s, lrt s, live_cells (lh s), lclock s).
Lemma obs_run strict t0 acts o : option_map obs (lrun strict (linit t0) acts) = Some o ->
  exists s, lrun strict (linit t0) acts = Some s /\ obs s = o.
Proof. destruct (lrun strict (linit t0) acts) as [s|]; [|discriminate]. intros [= E]. eauto. Qed.
Definition lost_acts : list lact :=
  [ALoop; ALoop; ALoop;            (* first round: empty heap, asleep *)
   AArm 1 10; ALoop; ALoop; ALoop; (* woken by the push; Reset(10) *)
   ATick 10; ATimer;               (* the timer fires before Wait *)
   ALoop; ATick 1000].
Theorem C69_lost_wakeup_refuted : ~ no_lost_wakeup false /\
  exists s, lrun false (linit 0) lost_acts = Some s /\ lpc_ s = LWaiting /\ lrt s = None /\
    In (1%nat, 10) (live_cells (lh s)) /\ 10 < lclock s.
Proof.
  assert (E : exists s, lrun false (linit 0) lost_acts = Some s /\ lpc_ s = LWaiting /\ lrt s = None /\
    live_cells (lh s) = [(1%nat, 10)] /\ lclock s = 1010).
  { destruct (obs_run false 0 lost_acts (LWaiting, None, [(1%nat, 10)], 1010)) as (s & E & O); [vm_compute; reflexivity|].
    exists s. injection O. auto. }
  destruct E as (s & E & P & R & L & C). split.
  - intros N. destruct (N _ _ _ E P) as (t & Q & _). congruence.
  - exists s. split; auto. split; auto. split; auto. rewrite L, C. split; [left; auto|lia].
Qed.

(** When the clock advances only while the loop is not at work itself - it sleeps, or an Expire it called runs, for as long as that
    takes - the runtime timer is set to fire no later than the earliest deadline. *)
Fixpoint quick (strict : bool) (s : lst) (acts : list lact) : Prop :=
  match acts with
  | [] => True
  | a :: acts =>
      match a with ATick d => 0 < d -> match lpc_ s with LExpire _ _ | LWaiting | LWoken => True | _ => False end | _ => True end /\
      match lstep strict s a with None => True | Some s' => quick strict s' acts end
  end.
Definition fresh_sample (s : lst) : Prop :=
  match lpc_ s with LInner now false => now = lclock s | LArmed | LWaiting => llag s = 0 | _ => True end.
Lemma quick_step strict s a s' : fresh_sample s -> quick strict s [a] -> lstep strict s a = Some s' -> fresh_sample s'.
Proof.
  intros F [Q _] E. destruct s as [h pc rt lag clk]. destruct a as [d| | |x d|x]; cbn [lstep lh lpc_ lrt llag lclock] in *.
  - injection E as <-. unfold fresh_sample in *. cbn [lpc_ llag lclock] in *. destruct pc as [|now []| | | |]; auto.
    destruct (Z.le_gt_cases d 0) as [L|L]; [|destruct (Q L)]. rewrite Z.max_l by lia. lia.
  - destruct pc as [|now rechk|y now| | |].
    + injection E as <-. reflexivity.
    + destruct (size h =? 0); [injection E as <-; reflexivity|]. destruct (get h (top h)) as [t|]; [|discriminate]. destruct (now <=? ie t).
      * destruct rechk; injection E as <-; unfold fresh_sample in *; cbn in *; auto. lia.
      * destruct (remove h (top h)) as [h'|]; [|discriminate]. destruct (ix t) as [x|]; [|discriminate]. injection E as <-. exact Logic.I.
    + injection E as <-. exact Logic.I.
    + injection E as <-. exact F.
    + injection E as <-. exact F.
    + injection E as <-. exact Logic.I.
  - destruct rt as [t|]; [|injection E as <-; exact F]. destruct (t <=? clk); [|injection E as <-; exact F].
    destruct pc as [|now rechk|y now| | |]; try (injection E as <-; exact F); [|injection E as <-; exact Logic.I]. destruct strict; injection E as <-; exact F.
  - destruct (lock_free pc) eqn:LF; [|injection E as <-; exact F]. destruct (push h x (clk + d)) as [[h' b]|]; [|discriminate]. injection E as <-.
    destruct b, pc; try discriminate; try exact Logic.I; exact F.
  - destruct (lock_free pc) eqn:LF; [|injection E as <-; exact F]. destruct (hstep h (Stop x)) as [[h' b]|]; [|discriminate]. injection E as <-.
    destruct pc; try discriminate; try exact Logic.I; exact F.
Qed.
Lemma quick_run strict acts : forall s s', fresh_sample s -> quick strict s acts -> lrun strict s acts = Some s' -> fresh_sample s'.
Proof.
  induction acts as [|a acts IH]; intros s s' F Q E; cbn [lrun] in E; [now injection E as <-|]. destruct (lstep strict s a) as [s1|] eqn:X; [|discriminate].
  destruct Q as [Q1 Q2]. rewrite X in Q2. apply (IH s1 s'); auto. apply (quick_step strict s a); auto. split; [exact Q1|]. rewrite X. exact Logic.I.
Qed.
Theorem C69_wakes_on_time_partial : forall t0 acts s, lrun true (linit t0) acts = Some s -> quick true (linit t0) acts -> lpc_ s = LWaiting ->
  exists t, lrt s = Some t /\ forall x e, In (x, e) (live_cells (lh s)) -> t <= e.
Proof.
  intros t0 acts s E Q P. destruct (C69_no_lost_wakeup_partial t0 acts s E P) as (t & R & B). exists t. split; [exact R|]. intros x e I.
  pose proof (quick_run true acts (linit t0) s Logic.I Q E) as F. unfold fresh_sample in F. rewrite P in F. specialize (B x e I). lia.
Qed.

(** A strict run that sleeps with armed timers. *)
Example C69_ex : exists s, lrun true (linit 0) [ALoop; ALoop; ALoop; AArm 1 10; AArm 2 5; AArm 3 20; ALoop; ALoop; ALoop; ALoop; ATick 2; AArm 4 50] = Some s /\
  lpc_ s = LWaiting /\ lrt s = Some 5 /\ length (live_cells (lh s)) = 4%nat.
Proof.
  edestruct (obs_run true 0) as (s & E & O); [|exists s; split; [exact E|]].
  - vm_compute. reflexivity.
  - injection O as -> -> L _. rewrite L. auto.
Qed.
(** an Expire that takes 7 units of time, while another timer waits: the runtime timer is set by a new look at the clock *)
Example C69_slow_expire : exists acts s, lrun true (linit 0) acts = Some s /\ quick true (linit 0) acts /\
  lpc_ s = LWaiting /\ lrt s = Some 20 /\ live_cells (lh s) = [(2%nat, 20)] /\ lclock s = 13.
Proof.
  exists [ALoop; ALoop; ALoop; AArm 1 5; AArm 2 20; ALoop; ALoop; ALoop; ALoop; ATick 6; ATimer; ALoop; ALoop; ALoop; ATick 7; ALoop; ALoop; ALoop; ALoop; ALoop].
  edestruct (obs_run true 0) as (s & E & O); [|exists s; split; [exact E|]].
  - vm_compute. reflexivity.
  - split; [|injection O as -> -> -> ->; auto]. vm_compute. repeat split; discriminate.
Qed.

Print Assumptions C69_wakes_on_time_partial.
Print Assumptions C69_timer_loop_never_panics.
Print Assumptions C69_no_lost_wakeup_partial.
Print Assumptions C69_lost_wakeup_refuted.
