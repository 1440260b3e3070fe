(** Properties of ParallelService: C56, C57, C58, C79, C80. *)
From Coq Require Import List Bool Arith ZArith Lia.
Import ListNotations.
From Verif Require Import ParModel ParSpec ParProofs.

(** * C56 *)
(** at no moment do more than N handlers run *)
Theorem C56_at_most_n : forall n es t s, run (p_init n) es = (t, s) ->
  NoDup (running t) /\ length (running t) <= slots n.
Proof.
  intros n es t s E. apply run_reach0 in E. split; [apply (reach_TI n t s E)|now apply (running_le n t s)].
Qed.
Print Assumptions C56_at_most_n.

(** no slot is lost: when the service can do nothing more, a request that waits means that N handlers are running *)
Theorem C56_slots_come_back : forall n es t s r, run (p_init n) es = (t, s) -> stuck s ->
  In (OSend r) t -> ~ In (OStart r) t -> ~ answered t r -> ~ In OExit t -> length (running t) = slots n.
Proof.
  intros n es t s r E K Se St An Ex. apply run_reach0 in E.
  pose proof (reach_WI n t s E) as W. pose proof (reach_TI n t s E) as J.
  destruct (w_where t s W r Se Ex) as [X|[X|[X|X]]].
  4: { destruct An. apply in_completed, (j_done t s J), X. }
  3: { exfalso. destruct (stuck_h n t s E K r) as [Y|[Y|Y]]; [tauto| |].
       - apply (j_run t s J) in Y. apply running_started in Y as [[]|Y]. tauto.
       - apply An, in_completed, (j_done t s J), (i_fin s (reach_SI n t s E)). auto. }
  - assert (L : exists r0, lp s = LGot r0 /\ sema s = 0).
    { destruct (stuck_lp n t s E K) as [[_ Q]|[Q|[_ Q]]]; [rewrite Q in X; destruct X|assumption|rewrite Q in X; destruct X]. }
    destruct L as (r0 & L & Z). destruct (reach_sum n t s E) as (_ & l & N & I & Sm). rewrite L, Z in Sm. cbn [token] in Sm.
    rewrite (same_length (running t) l); [lia|apply (j_nd t s J)|assumption|].
    intro i. rewrite (j_run t s J i), I. destruct (stuck_h n t s E K i) as [Y|[Y|Y]]; rewrite Y; cbn [busy]; intuition congruence.
  - assert (L : exists r0, lp s = LGot r0 /\ sema s = 0).
    { destruct (stuck_lp n t s E K) as [[Q _]|[Q|[Q _]]]; [|assumption|]; destruct X as [X|[X|X]]; congruence. }
    destruct L as (r0 & L & Z). destruct (reach_sum n t s E) as (_ & l & N & I & Sm). rewrite L, Z in Sm. cbn [token] in Sm.
    rewrite (same_length (running t) l); [lia|apply (j_nd t s J)|assumption|].
    intro i. rewrite (j_run t s J i), I. destruct (stuck_h n t s E K i) as [Y|[Y|Y]]; rewrite Y; cbn [busy]; intuition congruence.
Qed.
Print Assumptions C56_slots_come_back.

Lemma busy_bound l : forall es s, SI s -> covers s l -> busy_run s es -> length es <= meas s l.
Proof.
  induction es as [|e es IH]; intros s I C B; cbn [length busy_run] in *; [lia|]. destruct B as (B1 & B2 & B3).
  destruct (step s e) as [o s'] eqn:E. cbn [snd] in B3.
  destruct (int_step s e o s' l I B1 C E) as [[-> ->]|[M C']]; [congruence|].
  specialize (IH s' (SI_tr _ _ _ (step_tr _ _ _ _ E) I) C' B3). lia.
Qed.
(** and that point is reached: the service takes finitely many steps between two calls of its users and handlers *)
Theorem C56_settles : forall n es t s, run (p_init n) es = (t, s) ->
  exists k, forall fs, busy_run s fs -> length fs <= k.
Proof.
  intros n es t s E. apply run_reach0 in E. exists (meas s (cover_list t)). intros fs B.
  apply busy_bound; [eapply reach_SI; eauto|now apply (reach_covers n)|assumption].
Qed.
Print Assumptions C56_settles.

(** two slots, three requests: the third waits until a handler ends *)
Definition ex56 : list ev :=
  [Send 0; Send 1; Send 2; Recv; Loop; Loop; Recv; Loop; Loop; H 0; H 1; Recv; Loop].
Example C56_ex : exists t s, run (p_init 2) ex56 = (t, s) /\ running t = [1; 0] /\ lp s = LGot 2 /\ sema s = 0.
Proof. eexists _, _. split; [vm_compute; reflexivity|]. vm_compute. auto. Qed.
Example C56_ex_next : exists t s, run (p_init 2) (ex56 ++ [Panic 1; H 1; H 1; Loop; Loop; H 2]) = (t, s) /\
  running t = [2; 0] /\ In (ODone 1 RcInternalError []) t.
Proof. eexists _, _. split; [vm_compute; reflexivity|]. vm_compute. split; [reflexivity|]. tauto. Qed.
Example C56_ex_stuck : stuck (snd (run (p_init 2) ex56)).
Proof.
  intros e I. destruct e as [r|r c|r c b|r| | | | |r]; try (destruct I; fail); try (vm_compute; reflexivity).
  destruct r as [|[|[|r]]]; vm_compute; reflexivity.
Qed.

(** * C57 *)
(** every response has one of four origins *)
Theorem C57_origin : forall n es t s r c b, run (p_init n) es = (t, s) -> In (ODone r c b) t ->
  (In (ORet r c b) t) \/                                    (* the handler returned it *)
  (b = [] /\ In (OFail r c) t) \/                           (* the request was cancelled, timed out, ... *)
  (c = RcInternalError /\ b = [] /\ (In (OPanic r) t \/ exists b', In (ORet r RcTimeout b') t)) \/
  (c = RcShutdown /\ b = [] /\ In OExit t /\ ~ In (OStart r) t).
Proof.
  intros n es t s r c b E X. apply run_reach0 in E. destruct (j_src t s (reach_TI n t s E) r c b X) as [[X1 X2]|[X1|[X1|X1]]]; auto.
Qed.
Print Assumptions C57_origin.
(** a request gets at most one response *)
Theorem C57_once : forall n es t s, run (p_init n) es = (t, s) -> NoDup (completed t).
Proof. intros n es t s E. apply run_reach0 in E. apply (reach_TI n t s E). Qed.
Print Assumptions C57_once.
(** a handler's result reaches the requester unless the request was failed from outside; missing: the code RcTimeout *)
Theorem C57_result_is_delivered_partial : forall n es t s r c b, run (p_init n) es = (t, s) -> stuck s ->
  In (ORet r c b) t -> c <> RcTimeout ->
  In (ODone r c b) t \/ exists c', In (ODone r c' []) t /\ In (OFail r c') t.
Proof.
  intros n es t s r c b E K X N. apply run_reach0 in E. destruct (j_ret t s (reach_TI n t s E) r c b X) as [Y|[_ [Y|Y]]].
  - destruct (stuck_h n t s E K r) as [Z|[Z|Z]]; congruence.
  - contradiction.
  - assumption.
Qed.
Print Assumptions C57_result_is_delivered_partial.
(** a panic gives RcInternalError unless the request was failed from outside *)
Theorem C57_panic : forall n es t s r, run (p_init n) es = (t, s) -> stuck s -> In (OPanic r) t ->
  In (ODone r RcInternalError []) t \/ exists c', In (ODone r c' []) t /\ In (OFail r c') t.
Proof.
  intros n es t s r E K X. apply run_reach0 in E. pose proof (reach_TI n t s E) as J. pose proof (j_pan t s J r X) as L.
  assert (D : rs s r = RDone).
  { destruct (stuck_h n t s E K r) as [Z|[Z|Z]]; [rewrite Z in L; destruct L..|]. apply (i_fin s (reach_SI n t s E)). auto. }
  apply (j_done t s J), in_completed in D as (c & b & D).
  destruct (j_src t s J r c b D) as [(Y & ->)|[Y|[(-> & -> & _)|(_ & _ & _ & Y)]]].
  - right. exists c. auto.
  - destruct (j_one t s J r c b Y). tauto.
  - auto.
  - destruct Y. apply (j_ran t s J). auto.
Qed.
Print Assumptions C57_panic.
(** every handler that ended was answered for *)
Theorem C57_finished_is_answered : forall n es t s r, run (p_init n) es = (t, s) -> stuck s ->
  In (OStart r) t -> ~ In r (running t) -> answered t r.
Proof.
  intros n es t s r E K X Y. apply run_reach0 in E. pose proof (reach_TI n t s E) as J.
  apply in_completed, (j_done t s J). apply (i_fin s (reach_SI n t s E)). destruct (j_start t s J r X) as [Z1 Z2].
  destruct (stuck_h n t s E K r) as [Z|[Z|Z]]; [tauto|apply (j_run t s J) in Z; tauto|auto].
Qed.
Print Assumptions C57_finished_is_answered.

(** RcTimeout returned by a handler never reaches the requester *)
Definition ex57 : list ev := [Send 0; Recv; Loop; Loop; H 0; Return 0 RcTimeout [7%Z]; H 0; H 0; H 0].
Theorem C57_timeout_result_refuted : exists t s, run (p_init 1) ex57 = (t, s) /\ stuck s /\
  In (ORet 0 RcTimeout [7%Z]) t /\ (forall c, ~ In (OFail 0 c) t) /\ ~ In (ODone 0 RcTimeout [7%Z]) t /\
  In (ODone 0 RcInternalError []) t.
Proof.
  eexists _, _. split; [vm_compute; reflexivity|]. split.
  - intros e I. destruct e as [r|r c|r c b|r| | | | |r]; try (destruct I; fail); try (vm_compute; reflexivity).
    destruct r as [|r]; vm_compute; reflexivity.
  - cbn [In]. repeat split; intros; intuition congruence.
Qed.
Print Assumptions C57_timeout_result_refuted.
Example C57_ex : exists t s, run (p_init 1) [Send 0; Recv; Loop; Loop; H 0; Return 0 5%Z [1; 2]%Z; H 0; H 0; H 0] = (t, s) /\
  In (ODone 0 5%Z [1; 2]%Z) t /\ hp s 0 = HEnd /\ sema s = 1.
Proof. eexists _, _. split; [vm_compute; reflexivity|]. cbn [In]. split; [tauto|]. vm_compute. auto. Qed.
(** cancelled while it ran: the result is dropped *)
Example C57_ex_cancel : exists t s, run (p_init 1) [Send 0; Recv; Loop; Loop; H 0; Fail 0 65283; Return 0 5%Z [1]%Z; H 0; H 0; H 0] = (t, s) /\
  completed t = [0] /\ In (ODone 0 65283 []) t.
Proof. eexists _, _. split; [vm_compute; reflexivity|]. vm_compute. tauto. Qed.

(** * C58 *)
(** the service never answers what is still queued when it leaves *)
Lemma drain_step s e o s' r : SI s -> gone (lp s) -> rs s r = RPend -> internal e -> step s e = (o, s') ->
  gone (lp s') /\ rs s' r = RPend /\ ~ answered o r.
Proof.
  intros I G P Ie E. pose proof (step_tr s e o s' E) as T.
  assert (NF : forall c, ~ In (OFail r c) o).
  { intros c X. destruct e; try (destruct Ie; fail); cbn [step] in E.
    - destruct (stp s), (lp s) as [|i|i| | |i]; try (injection E as <- <-; cbn [In] in X; intuition congruence).
      unfold respond_fail, chain_response, ok in E. destruct (rs s i), (ln s i); cbn [andb] in E; try destruct (_ =? _)%Z;
        injection E as <- <-; cbn [In] in X; intuition congruence.
    - destruct (q s), (lp s) as [|i|i| | |i]; injection E as <- <-; cbn [In] in X; intuition congruence.
    - unfold step_loop in E. destruct (lp s) as [|i|i| | |i]; try (destruct (sema s)); try (destruct (rs s i) eqn:?); try (destruct (_ <? _));
        try (injection E as <- <-; cbn [In] in X; intuition congruence);
        unfold respond, chain_response, ok in E; rewrite ?Heqr0 in E; try (destruct (ln s i)); cbn [andb] in E; try destruct (_ =? _)%Z;
        injection E as <- <-; cbn [In] in X; intuition congruence.
    - unfold step_h in E. unfold respond, respond_fail, chain_response, ok in E.
      destruct (hp s r0), (ln s r0), (rs s r0); cbn [andb] in E; try destruct (_ =? _)%Z; try destruct (_ <? _);
        injection E as <- <-; cbn [In] in X; intuition congruence. }
  assert (G' : gone (lp s')).
  { destruct (tr_lp s o s' I T) as [(L & _)|[(i & L & _)|[(i & L & L' & _)|[(i & L & _)|[(i & L & _)|[(i & L & _)|[(L & _)|[(i & _ & L' & _)|(o' & L & _)]]]]]]]];
      try (rewrite L in G; destruct G); try (rewrite L'; exact Logic.I); try tauto. rewrite L. destruct (lp s); exact G. }
  split; [assumption|].
  assert (ND : ~ answered o r).
  { intros (c & b & X). destruct (tr_done s o s' r I T) as [(_ & _ & Z)|(r0 & c0 & b0 & _ & _ & Z1 & Z2 & Z3)]; [destruct (Z c b X)|].
    destruct (proj1 (Z2 c b) X) as (<- & _ & _).
    destruct Z3 as [(Z3 & _)|[(Z3 & _)|[(_ & _ & _ & Z3)|(_ & _ & Z3 & _)]]]; [destruct (NF _ Z3)| |congruence|].
    - destruct (i_hs s I r); congruence.
    - destruct (tr_lp s o s' I T) as [(_ & L & _)|[(i & _ & _ & -> & _)|[(i & _ & _ & -> & _)|[(i & _ & _ & ->)|[(i & _ & _ & -> & _)|[(i & _ & _ & -> & _)|[(_ & _ & ->)|[(i & _ & _ & L & _)|(o' & L & _)]]]]]]]];
        cbn [In] in Z3; try tauto; intuition congruence. }
  split; [|assumption].
  destruct (tr_done s o s' r I T) as [(_ & Z & _)|(r0 & c0 & b0 & _ & Z & _ & Z2 & _)].
  - destruct T; fields; try assumption; try (spl r r0; [congruence|assumption]).
    all: try (unfold complete in *; fields; spl r r0; [tauto|assumption]).
    all: try (spl r r0; [|assumption]; exfalso; rewrite H in G; destruct G).
    all: destruct Z as [Z _]; unfold complete in *; fields; try (spl r r0; [|assumption]); rewrite ?P in Z; try congruence; try (specialize (Z eq_refl); congruence).
  - assert (r <> r0) by (intros ->; apply ND; exists c0, b0; now apply Z2).
    destruct T; unfold complete in *; fields; try assumption; rewrite upd_other; try assumption; intros ->.
    all: try congruence.
    all: try (now apply H1).
    all: apply ND; cbn [In]; unfold answered; cbn [In]; eauto 8.
Qed.
Lemma drain_run r : forall fs s t s', SI s -> gone (lp s) -> rs s r = RPend -> Forall internal fs -> run s fs = (t, s') -> ~ answered t r.
Proof.
  induction fs as [|e fs IH]; intros s t s' I G P F E; cbn [run] in E.
  - injection E as <- <-. intros (c & b & []).
  - inversion F as [|? ? F1 F2]; subst. destruct (step s e) as [o s1] eqn:X. destruct (run s1 fs) as [t1 s2] eqn:Y. injection E as <- <-.
    destruct (drain_step s e o s1 r I G P F1 X) as (A & B & C).
    intros (c & b & Z). apply in_app_iff in Z as [Z|Z]; [apply C; now exists c, b|].
    eapply (IH s1); eauto using SI_tr, step_tr. now exists c, b.
Qed.
Theorem C58_queued_is_forgotten_refuted : forall n es t s r, run (p_init n) es = (t, s) ->
  In OExit t -> In (OSend r) t -> ~ In (ORecv r) t -> ~ answered t r ->
  forall fs t' s', Forall internal fs -> run s fs = (t', s') -> ~ answered t' r.
Proof.
  intros n es t s r E X Se Re An fs t' s' F E'. apply run_reach0 in E.
  pose proof (reach_WI n t s E) as W. pose proof (reach_TI n t s E) as J. pose proof (reach_SI n t s E) as I.
  eapply drain_run; eauto; [now apply (w_exit t s W)|].
  pose proof (w_sent t s W r Se) as N. destruct (rs s r) eqn:R; [congruence|reflexivity| |].
  - exfalso. apply Re. apply (w_took t s W). right. intro Y. apply (i_h0 s I) in Y. congruence.
  - destruct An. apply in_completed, (j_done t s J), R.
Qed.
Print Assumptions C58_queued_is_forgotten_refuted.
Example C58_ex : exists t s, run (p_init 1) [Send 0; Send 1; Recv; Loop; Loop; Stop; Exit] = (t, s) /\
  In OExit t /\ In (OSend 1) t /\ ~ In (ORecv 1) t /\ completed t = [].
Proof. eexists _, _. split; [vm_compute; reflexivity|]. cbn [In]. repeat split; intuition congruence. Qed.
(** what it had taken before it left is answered or handled; missing: what was still queued *)
Theorem C58_taken_is_answered_partial : forall n es t s r t1 t2, run (p_init n) es = (t, s) -> stuck s ->
  t = t1 ++ OExit :: t2 -> In (ORecv r) t1 -> answered t r \/ In r (running t).
Proof.
  intros n es t s r t1 t2 E K Et X. apply run_reach0 in E.
  pose proof (reach_WI n t s E) as W. pose proof (reach_TI n t s E) as J.
  destruct (w_cut t s W r t1 t2 Et X) as [Y|Y].
  - destruct (stuck_h n t s E K r) as [Z|[Z|Z]]; [tauto|right; now apply (j_run t s J)|].
    left. apply in_completed, (j_done t s J), (i_fin s (reach_SI n t s E)). auto.
  - left. apply in_completed, (j_done t s J), Y.
Qed.
Print Assumptions C58_taken_is_answered_partial.
Example C58_ex_taken : exists t s, run (p_init 1) [Send 0; Send 1; Recv; Loop; Loop; Recv; Stop; Exit] = (t, s) /\
  t = [OSend 0; OSend 1; ORecv 0; ORecv 1; OStop] ++ OExit :: [ODone 1 RcShutdown []].
Proof. eexists _, _. split; [vm_compute; reflexivity|]. reflexivity. Qed.

(** * C79 *)
(** a request whose handler was started never ends with RcTimeout *)
Theorem C79_no_timeout_after_start : forall n es t s r b, run (p_init n) es = (t, s) ->
  In (OStart r) t -> ~ In (ODone r RcTimeout b) t.
Proof.
  intros n es t s r b E X Y. apply run_reach0 in E. pose proof (reach_TI n t s E) as J.
  apply (j_to t s J) in Y. destruct (j_start t s J r X). tauto.
Qed.
Print Assumptions C79_no_timeout_after_start.
Example C79_ex : exists t s, run (p_init 1) [Send 0; Recv; Loop; Loop; H 0; Fail 0 RcTimeout; Return 0 5%Z [1]%Z; H 0] = (t, s) /\
  In (OStart 0) t /\ In (OFail 0 RcTimeout) t /\ In (ODone 0 5%Z [1]%Z) t.
Proof. eexists _, _. split; [vm_compute; reflexivity|]. cbn [In]. tauto. Qed.

(** * C80 *)
(** a handler is started at most once, only for a request that was sent, and never for one already answered *)
Theorem C80_start : forall n es t s r t1 t2, run (p_init n) es = (t, s) -> t = t1 ++ OStart r :: t2 ->
  In (OSend r) t1 /\ ~ In (OStart r) t1 /\ ~ answered t1 r.
Proof.
  intros n es t s r t1 t2 E Et. apply run_reach0 in E. revert t1 t2 Et. revert t s E.
  refine (reach_ind_tr n _ _ _).
  - intros [|? ?] t2 X; discriminate.
  - intros t s o s' R IH T t1 t2 X. apply app_cut in X as [(t2' & X)|(o1 & X & ->)]; [eauto|].
    pose proof (reach_SI n t s R) as I. pose proof (reach_TI n t s R) as J. pose proof (reach_WI n t s R) as W.
    destruct (tr_hch s o s' r I T) as [Ei (Q1 & _)|? Ei Ei' ? ? O0|Ei Ei' O0 Es|Ei Ei' O0|c' b' Ei Ei' O0|Ei Ei' O0|c' b' Ei Ei' O0|c' b' Ei Ei' O0|Ei Ei' O0|Ei Ei' O0].
    + destruct Q1. rewrite X. apply in_app_iff. right. now left.
    + subst o. destruct o1; discriminate.
    + rewrite X in O0. destruct o1 as [|? [|? ?]]; [|discriminate|discriminate]. rewrite app_nil_r. repeat split.
      * destruct (w_new t s W r) as [Y|Y]; [congruence|assumption|congruence].
      * intro Y. destruct (j_start t s J r Y). tauto.
      * intro Y. apply in_completed, (j_done t s J) in Y. congruence.
    + rewrite X in O0. destruct o1; discriminate.
    + rewrite X in O0. destruct o1 as [|? [|? ?]]; discriminate.
    + rewrite X in O0. destruct o1 as [|? [|? ?]]; discriminate.
    + rewrite X in O0. destruct o1; discriminate.
    + rewrite X in O0. destruct o1 as [|? [|? ?]]; discriminate.
    + rewrite X in O0. destruct O0 as [O0|O0]; destruct o1 as [|? [|? ?]]; discriminate.
    + rewrite X in O0. destruct o1; discriminate.
Qed.
Print Assumptions C80_start.
Example C80_ex : exists t s, run (p_init 1) [Send 0; Recv; Loop; Loop; H 0] = (t, s) /\ t = [OSend 0; ORecv 0] ++ OStart 0 :: [].
Proof. eexists _, _. split; [vm_compute; reflexivity|]. reflexivity. Qed.
