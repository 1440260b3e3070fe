(** Properties C89-C91: stopping a listening server. *)
From Coq Require Import List Bool Arith Lia.
Import ListNotations.
From Verif Require Import ListenModel ListenSpec ListenProofs.

Lemma init_stage : stage [] s_init.
Proof. split; [reflexivity|]. cbn. repeat split; try discriminate. intros i []. Qed.
Lemma start_stage es t s : one_stop es -> start es = (t, s) -> Inv t s /\ stage t s.
Proof. intros O E. exact (run_stage es [] s_init t s O init_inv init_stage E). Qed.

(** ** C89: a stopped server ends *)
(** once a call of Stop has returned no connection is served any more *)
Theorem C89_no_service_after_stop es t s k es' t' s' i : start es = (t, s) -> In (OStopped k) t -> run s es' = (t', s') -> ~ In (OServe i) t'.
Proof.
  intros E H E'. pose proof (start_inv _ _ _ E) as I. apply (run_no_serve es' t s t' s' I); [|exact E'].
  apply (iClo _ _ I). exists k. apply (iStp _ _ I) in H. congruence.
Qed.
(** when Stop has returned the listener is closed *)
Definition shut (t : list obs) (s : st) : Prop := forall k, In (OStopped k) t -> lclosed s = true.
Lemma shut_step t s e o s' : shut t s -> step s e = (o, s') -> shut (t ++ o) s'.
Proof.
  intros H E k K. apply in_app_or in K.
  assert (C : (lclosed s = true -> lclosed s' = true) /\ (In (OStopped k) o -> lclosed s' = true)).
  { destruct e; cbn [step] in E; unfold step_accept, step_listen, step_stop, step_ctl, ok in E.
    all: repeat match type of E with context [match ?x with _ => _ end] => destruct x end; injection E as <- <-; cbn; (split; [now intro|]); intro N; try (now destruct N); try reflexivity; try (destruct N as [N|[]]; discriminate).
    all: try (apply in_app_or in N; destruct N as [N|[N|[]]]; [|discriminate]); apply in_map_iff in N; destruct N as (x & N & _); discriminate. }
  destruct C as [C1 C2]. destruct K as [K|K]; [apply C1; now apply (H k)|now apply C2].
Qed.
Lemma run_shut es s o s' : run s es = (o, s') -> lclosed s = true -> closing s = true -> lclosed s' = true /\ closing s' = true.
Proof.
  revert s o. induction es as [|e es IH]; intros s o; cbn [run]; [intro E; injection E as <- <-; now split|].
  destruct (step s e) as [o1 s1] eqn:E1. destruct (run s1 es) as [o2 s2] eqn:E2. intros E L C. injection E as <- <-. apply (IH s1 o2 E2).
  all: destruct e; cbn [step] in E1; unfold step_accept, step_listen, step_stop, step_ctl, ok in E1;
    repeat match type of E1 with context [match ?x with _ => _ end] => destruct x eqn:? end; injection E1 as <- <-; cbn; trivial; discriminate C.
Qed.
(** After Stop has returned no connection is accepted any more, not even to be closed at once, but for one that Accept had
    already returned, and the loop that accepts ends as soon as Accept has returned and nobody holds the lock. *)
Theorem C89_stops_listening es t s k es' t' s' : start es = (t, s) -> In (OStopped k) t -> run s es' = (t', s') ->
  (lp s <> LGot -> ~ In OReject t') /\ forall b, lock s' = None -> exists o, run s' [Listen; Accept b; Listen] = (o, w_lp s' LEnd).
Proof.
  intros E H R. pose proof (start_inv _ _ _ E) as I.
  assert (L : lclosed s = true).
  { refine (run_inv shut shut_step es [] s_init t s _ E k H). intros q []. }
  assert (C : closing s = true) by (apply (iClo _ _ I); exists k; apply (iStp _ _ I) in H; congruence).
  split.
  - clear -L C R. revert s t' L C R. induction es' as [|e es IH]; intros s t' L C; cbn [run]; [intros Q N; injection Q as <- <-; now intros []|].
    destruct (step s e) as [o1 s1] eqn:E1. destruct (run s1 es) as [o2 s2] eqn:E2. intros Q N X. injection Q as <- <-.
    assert (E0 : run s [e] = (o1 ++ [], s1)) by (cbn; now rewrite E1). destruct (run_shut _ _ _ _ E0 L C) as [L1 C1].
    assert (G : lp s1 <> LGot /\ ~ In OReject o1).
    { clear E0 E2 IH X. destruct e; cbn [step] in E1; unfold step_accept, step_listen, step_stop, step_ctl, ok in E1; rewrite ?L, ?andb_false_r, ?C in E1.
      all: repeat match type of E1 with context [match ?x with _ => _ end] => destruct x eqn:? end; injection E1 as <- <-; cbn; split; try congruence; try tauto; try (intros [X|[]]; discriminate).
      all: intro X; try (apply in_app_or in X; destruct X as [X|[X|[]]]; [|discriminate]); apply in_map_iff in X; destruct X as (? & X & _); discriminate. }
    apply in_app_or in X. destruct X as [X|X]; [now apply G|]. exact (IH s1 o2 L1 C1 E2 (proj1 G) X).
  - intros b F. destruct (run_shut _ _ _ _ R L C) as [L1 C1]. cbn [run step]. unfold step_listen, free. rewrite F, C1.
    destruct (lp s') eqn:P; cbn; unfold step_accept, step_listen, free; cbn; rewrite ?P, ?L1, ?F, ?C1, ?andb_false_r; cbn; rewrite ?P, ?F, ?C1; cbn; rewrite ?P; cbn; eexists; try reflexivity.
    all: f_equal; destruct s'; cbn in *; now subst.
Qed.
(** Stop called once: when the program has done all it can, and the writers of the connections told to stop have ended,
    Running is closed, Stop has returned, and the writer of every connection that was ever served has ended *)
Theorem C89_ends_partial es t s : start es = (t, s) -> one_stop es -> In (Stop 0) es -> quiet s -> (forall i, In (OTell i) t -> In (OWritten i) t) ->
  In OEnd t /\ In (OStopped 0) t /\ forall i, In (OServe i) t -> In (OWritten i) t.
Proof.
  intros E O H Q T. destruct (start_stage es t s O E) as [I G].
  pose proof (begun [] s_init es t s O init_inv init_stage H E) as B. destruct (quiet_end t s I G B Q T) as [K R].
  split; [now apply (iEnd _ _ I)|split; [now apply (iStp _ _ I)|]]. intros i Hi. apply (iWr _ _ I). destruct (iEndE _ _ I K) as [C _].
  apply (iSrv _ _ I) in Hi. split; intro X.
  - apply (iNone _ _ I) in X. lia.
  - assert (Z : In i (conns s)) by (apply (iIn _ _ I); now left). now rewrite C in Z.
Qed.
(** and it gets there: what it can do by itself is bounded *)
Theorem C89_settles_partial es t s : start es = (t, s) -> one_stop es -> exists n, forall es', productive s es' -> length es' <= n.
Proof. intros E O. destruct (start_stage es t s O E) as [I G]. exists (rank s). intros es' P. now apply (productive_bound es' t s). Qed.

(** ** C90: when Running is closed the server is done *)
Theorem C90_all_written es t s : start es = (t, s) -> In OEnd t ->
  (forall i, In (OServe i) t -> In (OWritten i) t) /\ forall es' t' s', run s es' = (t', s') -> forall i, ~ In (OServe i) t' /\ ~ In (OWritten i) t'.
Proof.
  intros E H. pose proof (start_inv _ _ _ E) as I. apply (iEnd _ _ I) in H. destruct (iEndE _ _ I H) as [C L].
  assert (W : forall i, In (OServe i) t -> In (OWritten i) t).
  { intros i Hi. apply (iWr _ _ I). apply (iSrv _ _ I) in Hi. split; intro X; [apply (iNone _ _ I) in X; lia|].
    assert (Z : In i (conns s)) by (apply (iIn _ _ I); now left). now rewrite C in Z. }
  split; [exact W|]. clear E. intros es' t' s' E'. assert (N : forall i, ~ In (OServe i) t') by exact (run_no_serve es' t s t' s' I L E'). intro i. split; [apply N|].
  assert (NS : forall i, cp s i <> CServe). { intros j X. assert (Z : In j (conns s)) by (apply (iIn _ _ I); now left). now rewrite C in Z. }
  clear C W N H. revert t s t' s' I L NS E'. induction es' as [|e es' IH]; intros t s t' s' I L NS; cbn [run].
  - intro E. injection E as <- <-. intros [].
  - destruct (step s e) as [o1 s1] eqn:E1. destruct (run s1 es') as [o2 s2] eqn:E2. intro E. injection E as <- <-. intro H. apply in_app_or in H.
    assert (NS1 : forall j, cp s1 j <> CServe).
    { intros j. clear -E1 NS L. destruct e as [b| |k| |x| |x|x|x|x]; cbn [step] in E1; unfold step_accept, step_listen, step_stop, step_ctl in E1; rewrite ?L in E1;
        repeat match goal with E : context [match ?x with _ => _ end] |- _ => destruct x eqn:? end; injection E1 as <- <-; cbn; try apply NS; unfold upd; destruct (_ =? _); try discriminate; apply NS. }
    destruct H as [H|H]; [|exact (IH (t ++ o1) s1 o2 s2 (step_inv _ _ _ _ _ I E1) (closing_stays _ _ _ _ E1 L) NS1 E2 H)].
    clear -E1 NS H L. destruct e as [b| |k| |x| |x|x|x|x]; cbn [step] in E1; unfold step_accept, step_listen, step_stop, step_ctl in E1; rewrite ?L in E1;
      repeat match goal with E : context [match ?x with _ => _ end] |- _ => destruct x eqn:? end; injection E1 as <- <-; cbn in H; try contradiction;
      try (destruct H as [H|H]; [try discriminate H|contradiction]).
    + apply in_app_or in H. destruct H as [H|H]; [apply in_map_iff in H; destruct H as (y & H & _); discriminate|]. cbn in H. destruct H as [H|H]; [discriminate|contradiction].
    + apply in_map_iff in H. destruct H as (y & H & _). discriminate.
    + now apply (NS x).
Qed.
(** but requests may still be read and passed on: a connection reports when its writer has ended *)
Definition early_end : list ev := [Accept true; Listen; CWritten 1; Stop 0; Stop 0; Stop 0; TakeConn 1; Ctl; CRead 1].
Theorem C90_still_reads_refuted : exists t s, start early_end = (t, s) /\ t = [OServe 1; OWritten 1; OStopped 0; OEnd; ORead 1].
Proof. eexists _, _. split; [vm_compute; reflexivity|reflexivity]. Qed.
(** and whenever there was a connection to be told to stop, one connection's goroutine is left behind for ever: it reports
    a second time, to nobody *)
Theorem C90_goroutine_left_refuted es t s i : start es = (t, s) -> In OEnd t -> In (OTell i) t ->
  exists j, In (OServe j) t /\ forall es' t' s', run s es' = (t', s') -> ~ In (OGone j) (t ++ t').
Proof.
  intros E H T. pose proof (start_inv _ _ _ E) as I. apply (iEnd _ _ I) in H.
  assert (L : last ([] ++ t) s). { apply (run_last es [] s_init t s init_inv); [|exact E]. intros [x []]. }
  destruct (L (ex_intro _ i T) H) as (j & SJ & CJ). exists j. split; [exact SJ|]. intros es' t' s' E' G.
  pose proof (run_inv Inv step_inv es' t s t' s' I E') as I'. apply (iGone _ _ I') in G.
  destruct (kend_run es' s t' s' H E') as [_ X]. apply X in G. destruct CJ; congruence.
Qed.

(** ** C91: Stop may be called again *)
(** a call that waits with the lock while the server's loop is busy (or has ended) waits for ever, and takes the server with it *)
Theorem C91_waits_for_ever s k : lock s = Some k -> sp s k = SSend -> stopq s = true -> kp s <> KSel ->
  forall es t' s', run s es = (t', s') -> ~ In (OStopped k) t' /\ ~ In OEnd t'.
Proof. intros A B C D es t' s' E. now apply (stuck_run es s k t' s' (conj A (conj B (conj C D)))). Qed.
(** two calls one after the other, while a connection's report is being handled *)
Definition twice : list ev := [Accept true; Listen; Accept true; Listen; CWritten 1; TakeConn 1; Stop 0; Stop 0; Stop 0; Stop 1].
Theorem C91_second_stop_refuted : exists t s, start twice = (t, s) /\ In (OStopped 0) t /\ sp s 1 = SSend /\
  forall es t' s', run s es = (t', s') -> ~ In (OStopped 1) t' /\ ~ In OEnd t'.
Proof.
  eexists _, _. split; [vm_compute; reflexivity|]. split; [cbn; tauto|split; [reflexivity|]].
  apply C91_waits_for_ever; try reflexivity. discriminate.
Qed.
(** the third call after the server has ended *)
Definition thrice : list ev := [Stop 0; Stop 0; Stop 0; TakeStop; Ctl; Stop 1; Stop 1; Stop 1; Stop 2].
Theorem C91_third_stop_refuted : exists t s, start thrice = (t, s) /\ t = [OStopped 0; OEnd; OStopped 1] /\
  forall es t' s', run s es = (t', s') -> ~ In (OStopped 2) t' /\ ~ In OEnd t'.
Proof.
  eexists _, _. split; [vm_compute; reflexivity|]. split; [reflexivity|]. apply C91_waits_for_ever; try reflexivity. discriminate.
Qed.
(** a first call returns, within three steps of its own *)
Theorem C91_first_stop_partial es t s : start es = (t, s) -> (forall k, ~ In (Stop k) es) ->
  exists s', run s [Stop 0; Stop 0; Stop 0] = ([OStopped 0], s').
Proof.
  intros E N. assert (O : one_stop es) by (intros k H; now destruct (N k)). destruct (start_stage es t s O E) as [I [A B]].
  assert (S0 : sp s 0 = SNew).
  { clear -E N. assert (G : forall es s o s', (forall k, ~ In (Stop k) es) -> sp s 0 = SNew -> run s es = (o, s') -> sp s' 0 = SNew).
    2: { exact (G es s_init t s N eq_refl E). }
    clear. induction es as [|e es IH]; intros s o s' N H; cbn [run]. { intro E. now injection E as <- <-. }
    destruct (step s e) as [o1 s1] eqn:E1. destruct (run s1 es) as [o2 s2] eqn:E2. intro E. injection E as <- <-. eapply IH; [| |exact E2].
    - intros k Hk. apply (N k). now right.
    - destruct e as [b| |k| |x| |x|x|x|x]; cbn [step] in E1; unfold step_accept, step_listen, step_stop, step_ctl in E1;
        repeat match goal with E : context [match ?x with _ => _ end] |- _ => destruct x eqn:? end; injection E1 as <- <-; cbn; try assumption; exfalso; apply (N k); now left. }
  rewrite S0 in B. destruct B as (Q & _). assert (F : free s = true).
  { unfold free. destruct (lock s) as [k|] eqn:L; [|reflexivity]. apply (iLock _ _ I) in L. destruct (Nat.eq_dec k 0) as [->|D]; [congruence|]. rewrite (A k D) in L. discriminate. }
  cbn [run step]. unfold step_stop at 1. rewrite S0, F. cbn. rewrite Q. cbn. eexists. reflexivity.
Qed.

(** ** The hypotheses are met *)
(** two connections; one ends by itself, one when told; the loop ends and one goroutine hangs *)
Definition orderly : list ev :=
  [Accept true; Listen; Accept true; Listen; CRead 1; CEof 1; CWritten 1; TakeConn 1; Ctl; CGo 1; TakeConn 1; Ctl;
   Stop 0; Stop 0; Stop 0; TakeStop; Ctl; Accept false; Listen; CEof 2; CWritten 2; TakeConn 2; Ctl; CGo 2].
Example ex_orderly : exists s, start orderly = ([OServe 1; OServe 2; ORead 1; OWritten 1; OGone 1; OStopped 0; OTell 2; OWritten 2; OEnd], s) /\
  one_stop orderly /\ In (Stop 0) orderly /\ quiet s /\ cp s 2 = CSecond.
Proof.
  eexists. split; [vm_compute; reflexivity|]. split; [|split; [cbn; tauto|split; [|reflexivity]]].
  - intros k H. cbn in H. repeat (destruct H as [H|H]; [try discriminate H; congruence|]). contradiction.
  - intros e N. destruct e as [b| |k| |i| |i|i|i|i]; cbn in N; try contradiction; try reflexivity.
    + destruct k as [|k]; [reflexivity|]. exfalso. apply N. reflexivity.
    + destruct i as [|[|[|i]]]; reflexivity.
Qed.
Example ex_listening : exists s, start [Accept true; Listen; Stop 0; Stop 0; Stop 0] = ([OServe 1; OStopped 0], s) /\ lp s = LAccept /\ fst (run s [Accept true; Listen]) = [] /\ lock s = None.
Proof. eexists. split; [vm_compute; reflexivity|]. now vm_compute. Qed.
Example ex_productive : productive (snd (start (firstn 9 orderly))) [CGo 1; TakeConn 1; Ctl].
Proof.
  vm_compute. split; [exact Logic.I|]. split; [intro H; apply (f_equal (fun x => cp (snd x) 1)) in H; discriminate H|]. split; [exact Logic.I|split; [discriminate|]].
  split; [exact Logic.I|split; [|exact Logic.I]]. intro H. apply (f_equal (fun x => kp (snd x))) in H. discriminate H.
Qed.

Print Assumptions C89_no_service_after_stop.
Print Assumptions C89_stops_listening.
Print Assumptions C89_ends_partial.
Print Assumptions C89_settles_partial.
Print Assumptions C90_all_written.
Print Assumptions C90_still_reads_refuted.
Print Assumptions C90_goroutine_left_refuted.
Print Assumptions C91_waits_for_ever.
Print Assumptions C91_second_stop_refuted.
Print Assumptions C91_third_stop_refuted.
Print Assumptions C91_first_stop_partial.
