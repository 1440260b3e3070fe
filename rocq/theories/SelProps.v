(** C150: what a ParallelService does after Stop. *)
From Coq Require Import List Bool Arith ZArith Lia.
Import ListNotations.
From Verif Require Import ParModel ParSpec ParProofs ParProps SelModel SelSpec SelProofs.

(** The loop with its nested selects does nothing that the loop of ParModel.v, which chooses freely, cannot do; and when it can do
    nothing more, neither can that one. So C56, C57, C58, C79 and C80 hold of it. *)
Theorem C150_all_of_the_free_loop_holds : forall n es t s, srun (s_init n) es = (t, s) ->
  exists fs, run (p_init n) fs = (t, base s) /\ (at_rest s -> stuck (base s)).
Proof.
  intros n es t s E. destruct (srun_par _ _ _ _ E) as (fs & F). exists fs. split; [exact F|].
  intros K. destruct (rest_stuck n t s) as [[X _]|[X _]]; auto. exact (srun_sreach n es [] _ t s (sreach0 n) E).
Qed.

(** After Stop was called at most N + 1 handlers are started. *)
Theorem C150_few_handlers_after_stop : forall n es t s t1 t2, srun (s_init n) es = (t, s) -> t = t1 ++ OStop :: t2 ->
  length (starts t2) <= slots n + 1.
Proof.
  intros n es t s t1 t2 E T.
  destruct (srun_cut _ _ _ _ _ _ _ E T) as (es1 & e & es2 & ta & s1 & oa & ob & s2 & tb & Z1 & Z2 & Z3 & -> & ->).
  destruct (stop_alone _ _ _ _ Z2) as [O SB]; [apply in_app_iff; right; now left|].
  assert (oa = [] /\ ob = []) as [-> ->] by (destruct oa as [|? [|? ?]]; cbn in O; try discriminate; injection O as -> ; auto).
  cbn [app] in *. rewrite app_nil_r in T.
  assert (R2 : sreach n (ta ++ [OStop]) s2) by (econstructor; [exact (srun_sreach n es1 [] _ ta s1 (sreach0 n) Z1)|exact Z2]).
  destruct (A_start n _ _ R2 SB) as (L & LL & AL). destruct (A_run L _ _ _ _ AL Z3) as [_ I].
  assert (N : NoDup (starts t)).
  { apply nodup_starts. intros u1 r u2 Eu. destruct (srun_par _ _ _ _ E) as (fs & F). apply (C80_start n fs t (base s) r u1 u2 F Eu). }
  rewrite T, starts_app in N. cbn [starts flat_map app] in N.
  assert (N' : NoDup (starts tb)) by (clear -N; induction (starts ta); [exact N|]; apply IHl; now inversion N).
  pose proof (NoDup_incl_length N' I). lia.
Qed.

(** Between Stop and the end of the loop at most one more request is taken from the queue. *)
Theorem C150_one_request_after_stop : forall n es t s t1 t2, srun (s_init n) es = (t, s) -> t = t1 ++ OStop :: t2 ->
  ~ In OExit t -> length (takes t2) <= 1.
Proof.
  intros n es t s t1 t2 E T X.
  destruct (srun_cut _ _ _ _ _ _ _ E T) as (es1 & e & es2 & ta & s1 & oa & ob & s2 & tb & Z1 & Z2 & Z3 & -> & ->).
  destruct (stop_alone _ _ _ _ Z2) as [O SB]; [apply in_app_iff; right; now left|].
  assert (oa = [] /\ ob = []) as [-> ->] by (destruct oa as [|? [|? ?]]; cbn in O; try discriminate; injection O as -> ; auto).
  cbn [app] in *. rewrite app_nil_r in T.
  assert (R2 : sreach n (ta ++ [OStop]) s2) by (econstructor; [exact (srun_sreach n es1 [] _ ta s1 (sreach0 n) Z1)|exact Z2]).
  assert (X' : ~ In OExit ((ta ++ [OStop]) ++ tb)) by (rewrite <- app_assoc; cbn [app]; now rewrite <- T).
  pose proof (takes_run n _ _ _ _ _ R2 SB X' Z3). unfold still in *.
  destruct (lp (base s2)); destruct (pt s2); lia.
Qed.

(** Stop does not wait for handlers: once it is called, the loop does at most five steps before it leaves, whatever the others do;
    and it does leave: when the service can do nothing more, it has. *)
Theorem C150_stop_returns_soon : forall n es t s fs t' s' k, srun (s_init n) es = (t, s) -> In OStop t -> ~ In OExit t ->
  srun s fs = (t', s') -> ~ In OExit t' -> loop_steps s fs k -> k <= 5.
Proof.
  intros n es t s fs t' s' k E SI X F X' LS. pose proof (srun_sreach n es [] _ t s (sreach0 n) E) as R. cbn [app] in R.
  destruct (stop_waits n t s R SI) as [SB|Y]; [|contradiction].
  assert (XX : ~ In OExit (t ++ t')) by (intro Y; apply in_app_iff in Y; tauto).
  pose proof (steps_run n _ _ _ _ _ _ R SB XX F LS). pose proof (far_bound (lp (base s)) (pt s)). lia.
Qed.
Theorem C150_stop_returns : forall n es t s, srun (s_init n) es = (t, s) -> at_rest s -> In OStop t -> In OExit t.
Proof.
  intros n es t s E K I. pose proof (srun_sreach n es [] _ t s (sreach0 n) E) as R. cbn [app] in R.
  destruct (stop_waits n t s R I) as [SB|Y]; [|exact Y]. apply (exit_gone n t s R).
  destruct (rest_stuck n t s R K) as [[_ X]|[_ X]]; [congruence|exact X].
Qed.

(** ** Examples *)
(** one slot: after Stop the handler that was about to start starts, ends, and one more is started: the bound is met; then the loop leaves *)
Definition two_more : list ev :=
  [Send 0; Send 1; Send 2; Loop; Recv; Loop; Loop; Loop; Loop; Recv; Loop; Stop;
   H 0; Return 0 5%Z []; H 0; H 0; H 0; Loop; Loop; H 1; Exit].
Example C150_bound_is_met : fst (srun (s_init 1) two_more) =
  [OSend 0; OSend 1; OSend 2; ORecv 0; ORecv 1] ++ OStop ::
  [OStart 0; ORet 0 5%Z []; ODone 0 5%Z []; OStart 1; OExit] /\
  slots 1 + 1 = length (starts [OStart 0; ORet 0 5%Z []; ODone 0 5%Z []; OStart 1; OExit]).
Proof. split; reflexivity. Qed.
(** one request is taken after Stop, and shut down; the handler that runs is not waited for *)
Definition one_more : list ev := [Send 0; Send 1; Loop; Recv; Loop; Loop; Loop; H 0; Loop; Stop; Recv].
Example C150_takes_one : fst (srun (s_init 1) one_more) = [OSend 0; OSend 1; ORecv 0; OStart 0] ++ OStop :: [ORecv 1] /\
  loop_steps (snd (srun (s_init 1) (firstn 10 one_more))) [Recv; Exit] 2 /\
  fst (srun (s_init 1) (one_more ++ [Exit])) = [OSend 0; OSend 1; ORecv 0; OStart 0; OStop; ORecv 1; OExit; ODone 1 RcShutdown []].
Proof.
  split; [reflexivity|]. split; [|reflexivity].
  apply ls_loop; [reflexivity|discriminate|]. apply ls_loop; [reflexivity|discriminate|]. constructor.
Qed.
(** and the service is at rest then, with the handler still running *)
Example C150_rests : at_rest (snd (srun (s_init 1) (one_more ++ [Exit]))) /\ running (fst (srun (s_init 1) (one_more ++ [Exit]))) = [0].
Proof.
  split; [|reflexivity]. intros e I. destruct e as [r|r c|r c b|r| | | | |r]; try (destruct I; fail); try (vm_compute; reflexivity).
  destruct r as [|[|r]]; vm_compute; reflexivity.
Qed.
Print Assumptions C150_all_of_the_free_loop_holds.
Print Assumptions C150_few_handlers_after_stop.
Print Assumptions C150_one_request_after_stop.
Print Assumptions C150_stop_returns_soon.
Print Assumptions C150_stop_returns.
