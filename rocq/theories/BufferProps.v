(** C48, C49, C72, C73, C74: the endpoint's backlog. *)
From Coq Require Import List Bool Arith Lia Permutation.
Import ListNotations.
From Verif Require Import BufferModel BufferSpec BufferProofs BufferTrace BufferOrder.

(** a crash adds nothing to what the users of the channel see *)
Lemma run_base n es t fin : run (b_init n) es = (t, fin) ->
  exists t0 s0, reach n t0 s0 /\ given t = given t0 /\ sent t = sent t0 /\ worked t = worked t0 /\ handed t = handed t0 /\ queued t = queued t0 /\
    (fin = Some s0 /\ t = t0 \/ fin = None).
Proof.
  intros R. destruct fin as [s|].
  - exists t, s. split; [eapply run_reach; eauto|]. auto 10.
  - destruct (crash_run n es t R) as (es1 & e & es2 & t1 & o & s1 & _ & R1 & S1 & ->). exists t1, s1. split; [eapply run_reach; eauto|].
    rewrite given_app, sent_app, worked_app, handed_app, queued_app.
    destruct (step_crash _ _ _ S1) as [_ [[_ ->]|(r & _ & _ & ->)]]; cbn [given sent worked handed queued flat_map]; rewrite !app_nil_r; auto 10.
Qed.

(** C48: nothing is put into the worker channel twice, nothing that was not sent; the worker gets what was put, in that order *)
Theorem C48_at_most_once : forall n es t fin, run (b_init n) es = (t, fin) ->
  NoDup (given t) /\ incl (given t) (sent t) /\ exists rest, given t = worked t ++ rest.
Proof.
  intros n es t fin R. destruct (run_base n es t fin R) as (t0 & s0 & RE & -> & -> & -> & _).
  assert (B := reach_BI _ _ _ RE). split; [apply (given_nodup _ _ B)|]. split; [apply (given_sent _ _ B)|].
  exists (ch s0). apply (reach_CI _ _ _ RE).
Qed.
Print Assumptions C48_at_most_once.
(** C48: the backlog keeps its order *)
Theorem C48_backlog_order : forall n es t fin, run (b_init n) es = (t, fin) -> subseq (handed t) (queued t) /\ NoDup (queued t).
Proof.
  intros n es t fin R. destruct (run_base n es t fin R) as (t0 & s0 & RE & _ & _ & _ & -> & -> & _).
  assert (B := reach_BI _ _ _ RE). split; [apply (handed_queued _ _ B)|apply B].
Qed.
Print Assumptions C48_backlog_order.
(** C48: when no Send and no step of the buffer's goroutine is left to run and the channel has room, every request
    that was sent and is still pending has been put into the channel -- however the senders, completions, the worker and a Stop interleaved *)
Theorem C48_nothing_is_lost : forall n es t s, run (b_init n) es = (t, Some s) -> stuck s -> length (ch s) < cap s ->
  forall r, In r (sent t) -> rst s r = RPend -> In r (given t).
Proof.
  intros n es t s R S F r IN P. eapply settled; eauto using run_reach. unfold full. now apply Nat.leb_gt.
Qed.
Print Assumptions C48_nothing_is_lost.
(** C48: that point is reached: the Sends under way and the goroutine of the buffer have at most this many steps to make *)
Theorem C48_handing_over_terminates : forall n es t s, run (b_init n) es = (t, Some s) ->
  forall es', effective s es' -> length es' <= 40 * length (sent t) + 19.
Proof.
  intros n es t s R es' E. assert (B := reach_BI _ _ _ (run_reach _ _ _ _ R)).
  assert (X := effective_work es' s t B E). assert (Y := work_bound s t B). unfold rid in *. lia.
Qed.
Print Assumptions C48_handing_over_terminates.

(** C73: if Send a returned before Send b was called, and both reach the worker, a comes first *)
Lemma nodup_split {A} (b : A) l1 : forall l2 k1 k2, NoDup (l1 ++ b :: l2) -> l1 ++ b :: l2 = k1 ++ b :: k2 -> l1 = k1.
Proof.
  induction l1 as [|x l1 IH]; intros l2 [|y k1] k2 ND E; cbn [app] in *; try reflexivity.
  - injection E as -> E. inversion ND; subst. destruct H1. apply in_or_app. right. now left.
  - injection E as -> E. inversion ND; subst. destruct H1. apply in_or_app. right. now left.
  - injection E as -> E. f_equal. inversion ND; subst. eapply IH; eauto.
Qed.
Lemma send_first s e o s' o1 b o2 : step s e = (o, Some s') -> o = o1 ++ OSend b :: o2 -> o1 = [] /\ e = Send b.
Proof.
  assert (N : forall x (o : list obs), In (OSend b) (x :: o) -> x <> OSend b -> In (OSend b) o) by (intros x l [H|H] D; [contradiction|exact H]).
  intros E Q. assert (IN : In (OSend b) o) by (rewrite Q; apply in_or_app; right; now left).
  destruct e; cbn [step] in E; unfold ok in E.
  - destruct (pcs s r); try (injection E as <- <-; contradiction). destruct (rst s r); injection E as <- <-; try contradiction.
    + destruct o1 as [|x [|y o1]]; cbn [app] in Q; try discriminate. injection Q as -> _. auto.
    + destruct o1 as [|x [|y [|z o1]]]; cbn [app] in Q; try discriminate. injection Q as -> _. auto.
  - destruct (cp s); try discriminate; injection E as <- <-; cbn [In] in IN; intuition discriminate.
  - destruct (rst s r); injection E as <- <-; contradiction.
  - injection E as <- <-; contradiction.
  - destruct (rst s r), (chained s r) as [[]|]; injection E as <- <-; contradiction.
  - destruct (rst s r), (chained s r) as [[]|]; injection E as <- <-; contradiction.
  - destruct (ch s); injection E as <- <-; cbn [In] in IN; intuition discriminate.
  - unfold step_push, ok in E. destruct (pcs s r); try (injection E as <- <-; cbn [In] in IN; intuition discriminate).
    + destruct (rst s r); injection E as <- <-; cbn [In] in IN; intuition discriminate.
    + destruct (full s); injection E as <- <-; cbn [In] in IN; intuition discriminate.
    + destruct (look (rows s) (i / bufRow)); injection E as <- <-; contradiction.
    + destruct (rst s r); injection E as <- <-; contradiction.
    + destruct (cp s); try discriminate; injection E as <- <-; cbn [In] in IN; intuition discriminate.
  - unfold step_loop, ok in E. destruct (lp s); try (injection E as <- <-; contradiction).
    + destruct (token s); [|destruct (cp s)]; injection E as <- <-; cbn [In] in IN; intuition discriminate.
    + destruct (rowid s (hRow s) =? head s / bufRow); [|destruct (look (rows s) (head s / bufRow))]; injection E as <- <-; contradiction.
    + destruct (cst (cells s p (head s mod bufRow))); injection E as <- <-; contradiction.
    + destruct q as [x|]; [destruct (rst s x)|]; injection E as <- <-; contradiction.
    + destruct (full s); injection E as <- <-; cbn [In] in IN; intuition discriminate.
Qed.
Lemma reach_OI n t s : reach n t s -> forall a b t1 t2, a <> b -> t = t1 ++ OSend b :: t2 -> In a (returned t1) -> OI a b s t.
Proof.
  induction 1 as [|t s e o s' R IH E]; intros a b t1 t2 AB Q IA; [destruct t1; discriminate|].
  apply app_eq_app in Q. destruct Q as [l [[Q1 Q2]|[Q1 Q2]]].
  - destruct l as [|x l].
    + cbn [app] in Q2. rewrite app_nil_r in Q1. subst t1. destruct (send_first s e o s' [] b t2 E (eq_sym Q2)) as [_ ->].
      eapply OI_init; eauto using reach_BI, reach_CI. rewrite <- Q2. now left.
    + cbn [app] in Q2. injection Q2 as <- Q2. eapply OI_step; eauto using reach_BI.
  - destruct (send_first s e o s' l b t2 E Q2) as [-> ->]. rewrite app_nil_r in Q1. subst t1. cbn [app] in Q2.
    eapply OI_init; eauto using reach_BI, reach_CI. rewrite Q2. now left.
Qed.
Theorem C73_sending_order : forall n es t s, run (b_init n) es = (t, Some s) ->
  forall a b t1 t2, a <> b -> t = t1 ++ OSend b :: t2 -> In a (returned t1) ->
  forall l1 l2, given t = l1 ++ b :: l2 -> In a (given t) -> In a l1.
Proof.
  intros n es t s R a b t1 t2 AB Q IA l1 l2 G GA. assert (RE := run_reach _ _ _ _ R).
  assert (O := reach_OI n t s RE a b t1 t2 AB Q IA).
  destruct (o_ord _ _ _ _ O) as (k1 & k2 & GE & IN); [rewrite G; apply in_or_app; right; now left|exact GA|].
  assert (ND := given_nodup _ _ (reach_BI _ _ _ RE)). rewrite G in GE, ND. now rewrite (nodup_split b l1 l2 k1 k2 ND GE).
Qed.
Print Assumptions C73_sending_order.

(** C72: Send never waits for the worker, for a completion or for another Send: once called it returns within ten of
    its own steps whatever all others do, unless the program crashes *)
Theorem C72_send_never_blocks : forall n es t s r, run (b_init n) es = (t, Some s) -> In r (sent t) ->
  forall es' t' s', run s es' = (t', Some s') -> 10 <= pushes r es' -> In r (returned (t ++ t')).
Proof.
  intros n es t s r R IS es' t' s' R' P. assert (RE := run_reach _ _ _ _ R). assert (B := reach_BI _ _ _ RE).
  assert (N : pcs s r <> PNone) by (intros E; exact (b_nop _ _ B r E IS)).
  destruct (run_rank r es' s t' s' R' N) as [L N']. assert (RE' := run_reach_from n es' t s t' s' RE R').
  apply (c_ret _ _ (reach_CI _ _ _ RE')). assert (rank (pcs s r) <= 10) by (destruct (pcs s r); cbn; lia).
  destruct (pcs s' r); cbn [rank] in L; try lia; congruence.
Qed.
Print Assumptions C72_send_never_blocks.

(** C74: the rows the backlog keeps are proportional to what is outstanding, not to what went through it *)
Theorem C74_memory : forall n es t s, run (b_init n) es = (t, Some s) ->
  head s <= length (queued t) /\ length (rows s) <= (length (queued t) - head s) / bufRow + 3.
Proof.
  intros n es t s R. assert (RE := run_reach _ _ _ _ R). assert (B := reach_BI _ _ _ RE). rewrite <- (b_tail _ _ B).
  split; [apply B|]. apply rows_bound; [eapply reach_MI; eauto|apply B].
Qed.
Print Assumptions C74_memory.
(** and nothing is outstanding once the buffer is settled *)
Theorem C74_settled : forall n es t s, run (b_init n) es = (t, Some s) -> stuck s -> length (ch s) < cap s -> length (rows s) <= 3.
Proof.
  intros n es t s R S F. destruct (C74_memory n es t s R) as [H1 H2]. assert (RE := run_reach _ _ _ _ R). assert (B := reach_BI _ _ _ RE).
  assert (X := reach_XI _ _ _ RE).
  assert (NA : ~ exists x, active (pcs s x) = true) by (intros [x A]; destruct (stuck_pc s x S) as [E|E]; rewrite E in A; discriminate).
  assert (HT : ~ head s < tail s).
  { intros H. destruct (stuck_lp s S) as [[L T]|[L|[_ L]]]; [|destruct (X L) as [_ A]; exact (NA (A H))|].
    - exact (NA (b_wake _ _ B L T H)).
    - unfold full in L. apply Nat.leb_le in L. lia. }
  rewrite (b_tail _ _ B) in HT. replace (length (queued t) - head s) with 0 in H2 by lia. rewrite Nat.div_0_l in H2 by apply bufRow_pos. lia.
Qed.
Print Assumptions C74_settled.

(** C49 is false: for every capacity, a Send that begins after Stop has ended crashes the program once the channel is full *)
Definition fill1 (r : rid) : list ev := [Send r; Push r; Push r; Push r; Push r].
Fixpoint fill (r k : nat) : list ev := match k with O => [] | S k => fill1 r ++ fill (S r) k end.
Lemma run_app es es' : forall s, run s (es ++ es') = match run s es with (t, Some s') => let '(o, f) := run s' es' in (t ++ o, f) | x => x end.
Proof.
  induction es as [|e es IH]; intros s; cbn [run app]; [destruct (run s es'); reflexivity|].
  destruct (step s e) as [o [s1|]]; [|reflexivity]. rewrite IH. destruct (run s1 es) as [o1 [s2|]]; [|reflexivity].
  destruct (run s2 es'). now rewrite app_assoc.
Qed.
(** r requests went straight into the channel *)
Record filled (n r : nat) (s : st) : Prop := {
  f_cap : cap s = n; f_ch : length (ch s) = r; f_tail : tail s = 0; f_head : head s = 0; f_row : rowid s (tRow s) = 0; f_cp : cp s = C0;
  f_new : forall x, r <= x -> pcs s x = PNone /\ rst s x = RNew }.
Ltac one := cbn [run step step_push]; unfold ok, step_push, full; fields; rewrite ?upd_same.
Lemma fill1_ok n r s : filled n r s -> r < n -> exists t s', run s (fill1 r) = (t, Some s') /\ filled n (S r) s'.
Proof.
  intros F L. destruct F. destruct (f_new0 r (le_n r)) as [P Q].
  unfold fill1. cbn [run step]. rewrite P, Q. one. one. rewrite f_tail0. one. rewrite f_head0. cbn [Nat.eqb]. rewrite ?upd_same. one.
  destruct (Nat.leb_spec (cap s) (length (ch s))); [lia|]. eexists _, _. split; [reflexivity|].
  split; fields; auto.
  - rewrite app_length. cbn. lia.
  - intros x LX. rewrite !upd_other by lia. apply f_new0. lia.
Qed.
Lemma fill_ok n k : forall r s, filled n r s -> r + k <= n -> exists t s', run s (fill r k) = (t, Some s') /\ filled n (r + k) s'.
Proof.
  induction k as [|k IH]; intros r s F L; cbn [fill].
  - exists [], s. rewrite Nat.add_0_r. auto.
  - destruct (fill1_ok n r s F) as (t & s1 & R & F1); [lia|]. destruct (IH (S r) s1 F1) as (t2 & s2 & R2 & F2); [lia|].
    exists (t ++ t2), s2. rewrite run_app, R, R2. split; [reflexivity|]. replace (r + S k) with (S r + k) by lia. exact F2.
Qed.
Definition before_stop (e : ev) : Prop := match e with Stop => False | _ => True end.
Theorem C49_send_after_stop_refuted : forall n, exists es r t1 s1 t2,
  Forall before_stop es /\ run (b_init n) (es ++ [Stop; Stop]) = (t1, Some s1) /\ In OStop t1 /\ ~ In r (sent t1) /\
  run s1 (Send r :: repeat (Push r) 9) = (t2, None) /\ In (OPanicSend r) t2.
Proof.
  intros n. destruct (fill_ok n n 0 (b_init n)) as (t & s & R & F); [split; cbn; auto|lia|].
  assert (B := reach_BI _ _ _ (run_reach _ _ _ _ R)). cbn [Nat.add] in F. destruct F. destruct (f_new0 n (le_n n)) as [P Q].
  exists (fill 0 n), n, (t ++ [OStop]), (w_cp (w_cp (w_token s true) C1) C2).
  eexists. split; [|split; [|split; [|split; [|split]]]].
  - generalize 0. clear. induction n as [|n IH]; intros r; cbn [fill]; [constructor|]. apply Forall_app. split; [|apply IH]. repeat constructor.
  - rewrite run_app, R. cbn [run step]. rewrite f_cp0. unfold ok. cbn [run step]. fields. reflexivity.
  - apply in_or_app. right. now left.
  - rewrite sent_app. cbn [sent flat_map]. rewrite app_nil_r. apply (b_nop _ _ B). exact P.
  - cbn [run step repeat]. fields. rewrite P, Q. one. one. rewrite f_tail0. one. rewrite f_head0. cbn [Nat.eqb]. rewrite ?upd_same. one.
    destruct (Nat.leb_spec (cap s) (length (ch s))); [|lia]. one. one. rewrite f_row0. rewrite ?f_tail0, Nat.div_0_l by apply bufRow_pos. cbn [Nat.eqb]. one. one. one. reflexivity.
  - cbn [app In]. auto.
Qed.
Print Assumptions C49_send_after_stop_refuted.
Theorem C49_double_stop_refuted : forall n, run (b_init n) [Stop; Stop; Stop] = ([OStop; OPanicStop], None).
Proof. reflexivity. Qed.
(** C49, what holds: only Stop makes it possible; then only a second Stop or a Send whose request went to the backlog crashes *)
Theorem C49_panic_partial : forall n es t, run (b_init n) es = (t, None) ->
  exists t1 s1 o, t = t1 ++ o /\ In OStop t1 /\ (exists es1, run (b_init n) es1 = (t1, Some s1) /\ exists e es2, es = es1 ++ e :: es2) /\
    (o = [OPanicStop] \/ exists r, o = [OPanicSend r] /\ In r (queued t1) /\ ~ In r (direct t1)).
Proof.
  intros n es t R. destruct (crash_run n es t R) as (es1 & e & es2 & t1 & o & s1 & E & R1 & S1 & ->).
  assert (RE := run_reach _ _ _ _ R1). assert (B := reach_BI _ _ _ RE). assert (C := reach_CI _ _ _ RE).
  destruct (step_crash _ _ _ S1) as [CP O]. exists t1, s1, o. split; [reflexivity|]. split; [now apply (c_stop _ _ C)|]. split; [eauto 10|].
  destruct O as [[_ ->]|(r & _ & P & ->)]; [auto|]. right. exists r. split; [reflexivity|]. split; [apply (b_mid _ _ B); rewrite P; cbn; lia|].
  intros D. destruct (b_dir _ _ B) as [_ D2]. destruct (D2 r D). congruence.
Qed.
Print Assumptions C49_panic_partial.
Lemma nostop_run es : forall s, cp s = C0 -> Forall before_stop es -> exists t s', run s es = (t, Some s') /\ cp s' = C0.
Proof.
  induction es as [|e es IH]; intros s C F; cbn [run]; [eauto|]. inversion F; subst.
  destruct (step s e) as [o [s1|]] eqn:E.
  - assert (C1 : cp s1 = C0).
    { clear - E C H1. destruct e; cbn [step] in E; unfold ok in E; try contradiction.
      - destruct (pcs s r), (rst s r); injection E as <- <-; exact C.
      - destruct (rst s r); injection E as <- <-; exact C.
      - injection E as <- <-; exact C.
      - destruct (rst s r), (chained s r) as [[]|]; injection E as <- <-; exact C.
      - destruct (rst s r), (chained s r) as [[]|]; injection E as <- <-; exact C.
      - destruct (ch s); injection E as <- <-; exact C.
      - unfold step_push, ok in E. rewrite C in E. destruct (pcs s r); [| | | | | | |destruct (look (rows s) (i / bufRow))| | | |];
          try (destruct (rst s r)); try (destruct (full s)); injection E as <- <-; exact C.
      - unfold step_loop, ok in E. rewrite C in E. destruct (lp s); [destruct (token s)| |destruct (rowid s (hRow s) =? head s / bufRow); [|destruct (look (rows s) (head s / bufRow))]|destruct (cst (cells s p (head s mod bufRow)))| | |destruct q as [x|]; [destruct (rst s x)|]|destruct (full s)| |];
          injection E as <- <-; exact C. }
    destruct (IH s1 C1 H2) as (t & s' & -> & C'). eauto.
  - destruct (step_crash _ _ _ E). congruence.
Qed.
Theorem C49_without_stop_partial : forall n es, Forall before_stop es -> exists t s, run (b_init n) es = (t, Some s).
Proof. intros n es F. destruct (nostop_run es (b_init n) eq_refl F) as (t & s & R & _). eauto. Qed.
Print Assumptions C49_without_stop_partial.

(** Examples. Capacity 1: request 0 goes straight to the channel, 1, 2 and 3 to the backlog; 2 is cancelled while it waits;
    the worker takes 0, and the buffer hands over 1 and 3. *)
Definition pushn (r k : nat) : list ev := repeat (Push r) k.
Definition ex1 : list ev :=
  [Send 0] ++ pushn 0 4 ++ [Send 1] ++ pushn 1 9 ++ [Send 2; Send 3] ++ pushn 2 3 ++ pushn 3 9 ++ pushn 2 9 ++ repeat Loop 12 ++
  [Finish 2; CellFree 2; Unchain 2; Recv] ++ repeat Loop 12 ++ [Recv] ++ repeat Loop 20.
Definition chk (f : list obs -> st -> bool) (x : result) : bool := match x with (t, Some s) => f t s | _ => false end.
Definition eqb_l (a b : list nat) : bool := if list_eq_dec Nat.eq_dec a b then true else false.
Example ex1_trace : chk (fun t s => eqb_l (given t) [0; 1; 3] && eqb_l (queued t) [1; 3; 2] && eqb_l (worked t) [0; 1] && eqb_l (returned t) [0; 1; 3; 2] && negb (token s)
     && match lp s with LRecv => true | _ => false end && (head s =? 3) && eqb_l (ch s) [3]) (run (b_init 1) ex1) = true.
Proof. vm_compute. reflexivity. Qed.
(** the hypotheses of C73: Send 0 returned before Send 1 was called *)
Example ex1_order : exists t1 t2, fst (run (b_init 1) ex1) = t1 ++ OSend 1 :: t2 /\ In 0 (returned t1).
Proof. exists [OSend 0; ODirect 0; OReturn 0]. eexists. split; [vm_compute; reflexivity|]. cbn. auto. Qed.
(** a settled state with a pending request *)
Example ex_settled : exists t s, run (b_init 2) (fill1 0) = (t, Some s) /\ stuck s /\ length (ch s) < cap s /\ In 0 (sent t) /\ rst s 0 = RPend.
Proof.
  eexists _, _. split; [vm_compute; reflexivity|]. split; [|cbn; auto 10].
  intros e IE. destruct e; try contradiction; [|reflexivity]. destruct r; reflexivity.
Qed.
(** an effective schedule *)
Example ex_effective : exists t s, run (b_init 1) [Send 0] = (t, Some s) /\ effective s [Push 0; Push 0].
Proof.
  eexists _, _. split; [reflexivity|]. cbn [effective internal]. split; [exact Logic.I|]. eexists _, _. split; [reflexivity|].
  split; [intros E; apply (f_equal (fun s => pcs s 0)) in E; discriminate|]. split; [exact Logic.I|]. eexists _, _. split; [reflexivity|].
  split; [intros E; apply (f_equal (fun s => pcs s 0)) in E; discriminate|exact Logic.I].
Qed.
