(** Consequences of the invariants of BufferProofs.v for traces: order, exactly once, termination, panics, memory. *)
From Coq Require Import List Bool Arith Lia Permutation.
Import ListNotations.
From Verif Require Import BufferModel BufferSpec BufferProofs.

(** states reached without a crash, with the trace so far *)
Inductive reach (n : nat) : list obs -> st -> Prop :=
| reach0 : reach n [] (b_init n)
| reachS t s e o s' : reach n t s -> step s e = (o, Some s') -> reach n (t ++ o) s'.
Lemma run_reach_from n es : forall t s t' s', reach n t s -> run s es = (t', Some s') -> reach n (t ++ t') s'.
Proof.
  induction es as [|e es IH]; intros t s t' s' R; cbn [run].
  - intros [= <- <-]. now rewrite app_nil_r.
  - destruct (step s e) as [o [s1|]] eqn:E; [|discriminate]. destruct (run s1 es) as [o' f] eqn:Q. intros [= <- ->].
    rewrite app_assoc. eapply IH; [eapply reachS; eauto|exact Q].
Qed.
Lemma run_reach n es t s : run (b_init n) es = (t, Some s) -> reach n t s.
Proof. intros E. apply (run_reach_from n es [] _ t s (reach0 n) E). Qed.
Lemma reach_BI n t s : reach n t s -> BI s t.
Proof. induction 1; [apply BI0|eapply BI_step; eauto]. Qed.
Lemma given_app t o : given (t ++ o) = given t ++ given o. Proof. apply flat_map_app. Qed.
Lemma worked_app t o : worked (t ++ o) = worked t ++ worked o. Proof. apply flat_map_app. Qed.
Lemma returned_app t o : returned (t ++ o) = returned t ++ returned o. Proof. apply flat_map_app. Qed.
Lemma direct_app t o : direct (t ++ o) = direct t ++ direct o. Proof. apply flat_map_app. Qed.
Lemma handed_app t o : handed (t ++ o) = handed t ++ handed o. Proof. apply flat_map_app. Qed.
Lemma queued_app t o : queued (t ++ o) = queued t ++ queued o. Proof. apply flat_map_app. Qed.
Lemma sent_app t o : sent (t ++ o) = sent t ++ sent o. Proof. apply flat_map_app. Qed.

Lemma given_perm t : Permutation (given t) (direct t ++ handed t).
Proof.
  induction t as [|o t IH]; [constructor|]. unfold given, direct, handed in *. cbn [flat_map].
  destruct o; cbn [app]; auto. rewrite IH. apply Permutation_middle.
Qed.
Lemma given_in t r : In r (given t) <-> In r (direct t) \/ In r (handed t).
Proof. rewrite <- in_app_iff. split; apply Permutation_in; [|symmetry]; apply given_perm. Qed.
Lemma handed_queued s t : BI s t -> subseq (handed t) (queued t).
Proof. intros B. eapply subseq_trans; [exact (b_hands _ _ B)|apply subseq_firstn]. Qed.
Lemma given_nodup s t : BI s t -> NoDup (given t).
Proof.
  intros B. apply (Permutation_NoDup (Permutation_sym (given_perm t))). destruct (b_dir _ _ B) as [D1 D2].
  assert (HN : NoDup (handed t)) by (eapply subseq_nodup; [exact (handed_queued _ _ B)|exact (b_nd _ _ B)]).
  assert (DJ : forall r, In r (direct t) -> ~ In r (handed t)).
  { intros r IN H. destruct (D2 r IN) as [_ N]. apply N. eapply subseq_in; [exact (handed_queued _ _ B)|exact H]. }
  clear - D1 HN DJ. induction (direct t) as [|x l IH]; cbn [app]; [exact HN|]. inversion D1; subst. constructor.
  - rewrite in_app_iff. intros [IN|IN]; [contradiction|]. apply (DJ x); [now left|exact IN].
  - apply IH; [assumption|]. intros r IN. apply DJ. now right.
Qed.
Lemma queued_sent s t : BI s t -> incl (queued t) (sent t).
Proof.
  intros B r IN. apply (b_sent _ _ B). intros E. destruct (b_early _ _ B r) as [N _]; [now rewrite E|contradiction].
Qed.
Lemma given_sent s t : BI s t -> incl (given t) (sent t).
Proof.
  intros B r IN. apply given_in in IN. destruct IN as [IN|IN].
  - apply (b_sent _ _ B). destruct (b_dir _ _ B) as [_ D]. destruct (D r IN) as [-> _]. discriminate.
  - apply (queued_sent _ _ B). eapply subseq_in; [exact (handed_queued _ _ B)|exact IN].
Qed.

(** the channel is a queue of bounded size *)
Record CI (s : st) (t : list obs) : Prop := {
  c_fifo : given t = worked t ++ ch s;
  c_cap : length (ch s) <= cap s;
  c_ret : forall r, In r (returned t) <-> pcs s r = PRet;
  c_stop : In OStop t <-> cp s = C2 }.
Lemma upd_dec {A} (f : nat -> A) k v x : (x = k /\ upd f k v x = v) \/ (x <> k /\ upd f k v x = f x).
Proof. destruct (Nat.eq_dec x k) as [->|N]; [left; split; [reflexivity|apply upd_same]|right; split; [exact N|now apply upd_other]]. Qed.
Lemma nstop t o : ~ In OStop o -> (In OStop (t ++ o) <-> In OStop t).
Proof. rewrite in_app_iff. tauto. Qed.
Lemma CI_quiet s t s' : CI s t -> ch s' = ch s -> cap s' = cap s -> pcs s' = pcs s -> cp s' = cp s -> CI s' (t ++ []).
Proof. intros C E1 E2 E3 E4. rewrite app_nil_r. destruct C. split; rewrite ?E1, ?E2, ?E3, ?E4; auto. Qed.
Lemma CI_pc s t s' r pc : CI s t -> pcs s r <> PRet -> pc <> PRet -> ch s' = ch s -> cap s' = cap s -> pcs s' = upd (pcs s) r pc -> cp s' = cp s -> forall o,
  given o = [] -> worked o = [] -> returned o = [] -> ~ In OStop o -> CI s' (t ++ o).
Proof.
  intros C N1 N2 E1 E2 E3 E4 o O1 O2 O3 O4. destruct C. split; rewrite ?given_app, ?worked_app, ?returned_app, ?O1, ?O2, ?O3, ?app_nil_r, ?E1, ?E2, ?E4; auto.
  - intros x. rewrite E3. destruct (upd_dec (pcs s) r pc x) as [[-> ->]|[_ ->]]; [|apply c_ret0]. rewrite c_ret0. tauto.
  - rewrite nstop; auto.
Qed.
Lemma CI_ret s t s' r o : CI s t -> pcs s r <> PRet -> (given o = [] /\ ch s' = ch s \/ given o = [r] /\ ch s' = ch s ++ [r] /\ full s = false) -> cap s' = cap s ->
  pcs s' = upd (pcs s) r PRet -> cp s' = cp s -> worked o = [] -> returned o = [r] -> ~ In OStop o -> CI s' (t ++ o).
Proof.
  intros C N1 G E2 E3 E4 O2 O3 O4. destruct C. split; rewrite ?given_app, ?worked_app, ?returned_app, ?O2, ?O3, ?app_nil_r, ?E2, ?E4; auto.
  - destruct G as [[-> ->]|(-> & -> & _)]; rewrite c_fifo0, ?app_nil_r, ?app_assoc; auto.
  - destruct G as [[_ ->]|(_ & -> & F)]; [auto|]. unfold full in F. apply Nat.leb_gt in F. rewrite app_length. cbn. lia.
  - intros x. rewrite E3, in_app_iff. cbn [In]. destruct (upd_dec (pcs s) r PRet x) as [[-> ->]|[N ->]]; [tauto|]. rewrite c_ret0. intuition congruence.
  - rewrite nstop; auto.
Qed.
Ltac ci_ret := match goal with C : CI ?s ?t |- CI (w_pc _ ?r _) _ =>
  eapply (CI_ret s t _ r); [exact C|congruence|first [left; split; reflexivity|right; split; [reflexivity|split; [reflexivity|assumption]]]|reflexivity|reflexivity|reflexivity|reflexivity|reflexivity|cbn [In]; intuition discriminate] end.
Ltac ci_pc := match goal with C : CI ?s ?t |- CI (w_pc _ ?r ?pc) _ =>
  eapply (CI_pc s t _ r pc); [exact C|congruence|try (match goal with |- context [if ?b then _ else _] => destruct b end); discriminate|reflexivity|reflexivity|reflexivity|reflexivity|reflexivity|reflexivity|reflexivity|cbn [In]; intuition discriminate] end.
Lemma CI_step s t e o s' : CI s t -> step s e = (o, Some s') -> CI s' (t ++ o).
Proof.
  intros C. destruct e; cbn [step]; unfold ok.
  - destruct (pcs s r) eqn:P; try (intros [= <- <-]; now apply (CI_quiet s)).
    destruct (rst s r); intros [= <- <-]; try (now apply (CI_quiet s)).
    + ci_pc.
    + ci_ret.
  - destruct (cp s) eqn:P; intros [= <- <-].
    + rewrite app_nil_r. destruct C. split; fields; auto. rewrite c_stop0, P. split; discriminate.
    + destruct C. split; fields; rewrite ?given_app, ?worked_app, ?returned_app; cbn [given worked returned flat_map]; rewrite ?app_nil_r; auto.
      rewrite in_app_iff. cbn [In]. tauto.
  - destruct (rst s r); intros [= <- <-]; now apply (CI_quiet s).
  - intros [= <- <-]; now apply (CI_quiet s).
  - destruct (rst s r), (chained s r) as [[]|]; intros [= <- <-]; now apply (CI_quiet s).
  - destruct (rst s r), (chained s r) as [[]|]; intros [= <- <-]; now apply (CI_quiet s).
  - destruct (ch s) as [|r l] eqn:H; intros [= <- <-]; [now apply (CI_quiet s)|].
    destruct C. split; fields; rewrite ?given_app, ?worked_app, ?returned_app; cbn [given worked returned flat_map app]; rewrite ?app_nil_r; auto.
    + rewrite c_fifo0, H, <- app_assoc. reflexivity.
    + rewrite H in c_cap0. cbn [length] in c_cap0. lia.
    + rewrite nstop; auto. intros [X|[]]; discriminate.
  - unfold step_push, ok. destruct (pcs s r) eqn:P.
    + intros [= <- <-]; now apply (CI_quiet s).
    + destruct (rst s r); intros [= <- <-]; try (ci_pc).
      ci_ret.
    + intros [= <- <-]. ci_pc.
    + intros [= <- <-]. ci_pc.
    + destruct (full s) eqn:F; intros [= <- <-]; [ci_pc|].
      ci_ret.
    + intros [= <- <-]. ci_pc.
    + intros [= <- <-]. ci_pc.
    + destruct (look (rows s) (i / bufRow)); intros [= <- <-]; ci_pc.
    + destruct (rst s r); intros [= <- <-]; ci_pc.
    + intros [= <- <-]. ci_pc.
    + destruct (cp s); intros [= <- <-]; ci_ret.
    + intros [= <- <-]; now apply (CI_quiet s).
  - unfold step_loop, ok. destruct (lp s) eqn:L.
    + destruct (token s); [intros [= <- <-]; now apply (CI_quiet s)|]. destruct (cp s) eqn:P; intros [= <- <-]; try (now apply (CI_quiet s)).
      destruct C. split; fields; rewrite ?given_app, ?worked_app, ?returned_app; cbn [given worked returned flat_map app]; rewrite ?app_nil_r; auto.
      rewrite nstop; auto. intros [X|[]]; discriminate.
    + intros [= <- <-]; now apply (CI_quiet s).
    + destruct (rowid s (hRow s) =? head s / bufRow); [intros [= <- <-]; now apply (CI_quiet s)|].
      destruct (look (rows s) (head s / bufRow)); intros [= <- <-]; now apply (CI_quiet s).
    + destruct (cst (cells s p (head s mod bufRow))); intros [= <- <-]; now apply (CI_quiet s).
    + intros [= <- <-]; now apply (CI_quiet s).
    + intros [= <- <-]; now apply (CI_quiet s).
    + destruct q as [r|]; [destruct (rst s r)|]; intros [= <- <-]; now apply (CI_quiet s).
    + destruct (full s) eqn:F; intros [= <- <-]; [now apply (CI_quiet s)|].
      destruct C. split; fields; rewrite ?given_app, ?worked_app, ?returned_app; cbn [given worked returned flat_map app]; rewrite ?app_nil_r; auto.
      * rewrite c_fifo0, app_assoc. reflexivity.
      * unfold full in F. apply Nat.leb_gt in F. rewrite app_length. cbn. lia.
      * rewrite nstop; auto. intros [X|[]]; discriminate.
    + intros [= <- <-]; now apply (CI_quiet s).
    + intros [= <- <-]; now apply (CI_quiet s).
Qed.
Lemma reach_CI n t s : reach n t s -> CI s t.
Proof.
  induction 1; [|eapply CI_step; eauto]. split; cbn; try tauto; try lia; try reflexivity; split; try discriminate; contradiction.
Qed.

(** when the loop has ended with places not looked at, a Send is on its way to the panic *)
Definition XI (s : st) : Prop := lp s = LExit -> cp s = C2 /\ (head s < tail s -> exists r, active (pcs s r) = true).
Lemma active_upd s r pc : active pc = true -> exists x, active (upd (pcs s) r pc x) = true.
Proof. exists r. now rewrite upd_same. Qed.
Lemma active_keep s r pc : active (pcs s r) = false \/ active pc = true -> (exists x, active (pcs s x) = true) -> exists x, active (upd (pcs s) r pc x) = true.
Proof.
  intros [E|E] [x A]; [|now apply active_upd]. exists x. destruct (upd_dec (pcs s) r pc x) as [[-> _]|[_ ->]]; [congruence|exact A].
Qed.
Lemma XI_step s t e o s' : BI s t -> XI s -> step s e = (o, Some s') -> XI s'.
Proof.
  unfold XI. intros B I. destruct e; cbn [step]; unfold ok.
  - destruct (pcs s r) eqn:P; try (intros [= <- <-]; exact I). destruct (rst s r); intros [= <- <-]; try exact I;
    fields; intros L; destruct (I L) as [C A]; (split; [exact C|]); intros H; (apply active_keep; [left; now rewrite P|auto]).
  - destruct (cp s) eqn:C; intros [= <- <-]; fields; intros L; destruct (I L); [congruence|]; split; [reflexivity|auto].
  - destruct (rst s r); intros [= <- <-]; exact I.
  - intros [= <- <-]; exact I.
  - destruct (rst s r), (chained s r) as [[]|]; intros [= <- <-]; exact I.
  - destruct (rst s r), (chained s r) as [[]|]; intros [= <- <-]; exact I.
  - destruct (ch s); intros [= <- <-]; exact I.
  - unfold step_push, ok. destruct (pcs s r) eqn:P.
    + intros [= <- <-]; exact I.
    + destruct (rst s r); intros [= <- <-]; fields; intros L; destruct (I L) as [C A]; (split; [exact C|]); intros H; (apply active_keep; [left; now rewrite P|auto]).
    + intros [= <- <-]; fields; intros L; destruct (I L) as [C A]; (split; [exact C|]); intros H; (apply active_keep; [left; now rewrite P|auto]).
    + intros [= <- <-]; fields; intros L; destruct (I L) as [C A]; (split; [exact C|]); intros H; (apply active_keep; [left; now rewrite P|auto]).
    + destruct (full s); intros [= <- <-]; fields; intros L; destruct (I L) as [C A]; (split; [exact C|]); intros H; (apply active_keep; [left; now rewrite P|auto]).
    + intros [= <- <-]; fields; intros L; destruct (I L) as [C A]; (split; [exact C|]); intros H. now apply active_upd.
    + intros [= <- <-]; fields; intros L; destruct (I L) as [C A]; (split; [exact C|]); intros H. apply active_upd. now destruct (rowid s (tRow s) =? i / bufRow).
    + destruct (look (rows s) (i / bufRow)); intros [= <- <-]; fields; intros L; destruct (I L) as [C A]; (split; [exact C|]); intros H; now apply active_upd.
    + destruct (rst s r); intros [= <- <-]; fields; intros L; destruct (I L) as [C A]; (split; [exact C|]); intros H; now apply active_upd.
    + intros [= <- <-]; fields; intros L; destruct (I L) as [C A]; (split; [exact C|]); intros H; now apply active_upd.
    + destruct (cp s) eqn:C; intros [= <- <-]; fields; intros L; destruct (I L) as [C' A]; congruence.
    + intros [= <- <-]; exact I.
  - unfold step_loop, ok. destruct (lp s) eqn:L.
    + destruct (token s) eqn:TK; [intros [= <- <-]; discriminate|]. destruct (cp s) eqn:P; intros [= <- <-]; fields; try congruence.
      intros _. split; [exact P|]. intros H. apply (b_wake _ _ B); auto.
    + intros [= <- <-]. fields. destruct (head s <? tail s); discriminate.
    + destruct (rowid s (hRow s) =? head s / bufRow); [intros [= <- <-]; discriminate|].
      destruct (look (rows s) (head s / bufRow)); intros [= <- <-]; discriminate.
    + destruct (cst (cells s p (head s mod bufRow))); intros [= <- <-]; discriminate.
    + intros [= <- <-]; discriminate.
    + intros [= <- <-]; discriminate.
    + destruct q as [r|]; [destruct (rst s r)|]; intros [= <- <-]; discriminate.
    + destruct (full s) eqn:F; intros [= <- <-]; fields; congruence.
    + intros [= <- <-]; discriminate.
    + intros [= <- <-]. intros _. exact (I eq_refl).
Qed.
Lemma reach_XI n t s : reach n t s -> XI s.
Proof. intros R. induction R; [intros X; discriminate|]. eapply XI_step; eauto using reach_BI. Qed.

(** what is left when nothing can move *)
Lemma stuck_pc s r : stuck s -> pcs s r = PNone \/ pcs s r = PRet.
Proof.
  intros S. specialize (S (Push r) Logic.I). cbn [step] in S. unfold step_push, ok in S.
  destruct (pcs s r) eqn:P; auto; exfalso.
  - destruct (rst s r); try discriminate; injection S as S; apply (f_equal pcs) in S; fields; apply (f_equal (fun f => f r)) in S; rewrite upd_same in S; congruence.
  - injection S as S; apply (f_equal pcs) in S; fields; apply (f_equal (fun f => f r)) in S; rewrite upd_same in S; congruence.
  - injection S as S; apply (f_equal pcs) in S; fields; apply (f_equal (fun f => f r)) in S; rewrite upd_same in S; destruct (tv =? head s); congruence.
  - destruct (full s); [|discriminate]. injection S as S; apply (f_equal pcs) in S; fields; apply (f_equal (fun f => f r)) in S; rewrite upd_same in S; congruence.
  - discriminate.
  - injection S as S; apply (f_equal pcs) in S; fields; apply (f_equal (fun f => f r)) in S; rewrite upd_same in S; destruct (rowid s (tRow s) =? i / bufRow); congruence.
  - destruct (look (rows s) (i / bufRow)); injection S as S; apply (f_equal pcs) in S; fields; apply (f_equal (fun f => f r)) in S; rewrite upd_same in S; congruence.
  - destruct (rst s r); injection S as S; apply (f_equal pcs) in S; fields; apply (f_equal (fun f => f r)) in S; rewrite upd_same in S; congruence.
  - injection S as S; apply (f_equal pcs) in S; fields; apply (f_equal (fun f => f r)) in S; rewrite upd_same in S; congruence.
  - destruct (cp s); discriminate.
Qed.
Lemma stuck_lp s : stuck s -> lp s = LRecv /\ token s = false \/ lp s = LExit \/ (exists r, lp s = LSend r) /\ full s = true.
Proof.
  intros S. specialize (S Loop Logic.I). cbn [step] in S. unfold step_loop, ok in S.
  destruct (lp s) eqn:L; auto; try (injection S as S; apply (f_equal lp) in S; fields; congruence).
  - destruct (token s) eqn:T; auto. injection S as S; apply (f_equal lp) in S; fields; congruence.
  - injection S as S; apply (f_equal lp) in S; fields. destruct (head s <? tail s); congruence.
  - destruct (rowid s (hRow s) =? head s / bufRow); [|destruct (look (rows s) (head s / bufRow))]; injection S as S; apply (f_equal lp) in S; fields; congruence.
  - destruct (cst (cells s p (head s mod bufRow))); injection S as S; apply (f_equal lp) in S; fields; congruence.
  - destruct q as [r|]; [destruct (rst s r)|]; injection S as S; apply (f_equal lp) in S; fields; congruence.
  - destruct (full s) eqn:F; [|discriminate]. right. right. split; eauto.
Qed.
Lemma settled n t s : reach n t s -> stuck s -> full s = false -> forall r, In r (sent t) -> rst s r = RPend -> In r (given t).
Proof.
  intros R S F r IN P. assert (B := reach_BI _ _ _ R). assert (X := reach_XI _ _ _ R).
  assert (NA : ~ exists x, active (pcs s x) = true) by (intros [x A]; destruct (stuck_pc s x S) as [E|E]; rewrite E in A; discriminate).
  assert (HT : ~ head s < tail s).
  { intros H. destruct (stuck_lp s S) as [[L T]|[L|[_ L]]]; [|destruct (X L) as [_ A]; exact (NA (A H))|congruence].
    exact (NA (b_wake _ _ B L T H)). }
  destruct (stuck_pc s r S) as [E|E]; [destruct (b_nop _ _ B r E IN)|].
  rewrite given_in. destruct (b_ret _ _ B r E) as [D|[Q|D]]; [auto| |congruence].
  apply In_nth_error in Q. destruct Q as [i Q]. assert (LT : i < length (queued t)) by (apply nth_error_Some; congruence).
  rewrite <- (b_tail _ _ B) in LT. destruct (b_served _ _ B i r) as [H|H]; auto; [lia|contradiction].
Qed.

(** a bound on the steps of the Sends under way and of the loop *)
Definition pw (c : ppc) : nat :=
  match c with
  | PNone | PRet => 0 | PWake => 11 | PMark _ _ _ => 12 | PChain _ _ => 13 | PLook _ => 14 | PRow _ => 15
  | PAdd => 26 | PTry => 27 | PHead _ => 28 | PTail => 29 | PCheck => 30
  end.
Definition lw (l : lpc) : nat :=
  match l with
  | LExit => 0 | LRecv => 1 | LInc => 2 | LSend _ => 3 | LPend _ => 4 | LFree _ _ => 5 | LReq _ => 6 | LState _ => 7 | LRow => 8 | LTest => 9
  end.
Definition sumw (f : nat -> nat) (l : list nat) : nat := fold_right (fun x a => f x + a) 0 l.
Lemma sumw_ext f g l : (forall x, In x l -> f x = g x) -> sumw f l = sumw g l.
Proof. induction l; intros H; cbn [sumw fold_right]; [reflexivity|]. fold (sumw f l) (sumw g l). rewrite (H a), IHl; [reflexivity| |now left]. intros x IN. apply H. now right. Qed.
Lemma sumw_upd (h : ppc -> nat) f r v l : NoDup l -> In r l -> sumw (fun x => h (upd f r v x)) l + h (f r) = sumw (fun x => h (f x)) l + h v.
Proof.
  induction l as [|y l IH]; intros ND IN; [contradiction|]. inversion ND; subst. cbn [sumw fold_right].
  fold (sumw (fun x => h (upd f r v x)) l) (sumw (fun x => h (f x)) l).
  destruct (Nat.eq_dec y r) as [->|NE].
  - rewrite upd_same, (sumw_ext (fun x => h (upd f r v x)) (fun x => h (f x)) l); [lia|]. intros x IX. rewrite upd_other; [reflexivity|congruence].
  - rewrite (upd_other f r v y NE). destruct IN as [->|IN]; [congruence|]. specialize (IH H2 IN). lia.
Qed.
Definition work (l : list nat) (s : st) : nat := sumw (fun r => pw (pcs s r)) l + 10 * (tail s - head s) + lw (lp s) + (if token s then 10 else 0).
Lemma work_pc l s s' r pc : NoDup l -> In r l -> pcs s' = upd (pcs s) r pc -> head s' = head s -> lp s' = lp s ->
  pw pc + 10 * (tail s' - head s) + (if token s' then 10 else 0) < pw (pcs s r) + 10 * (tail s - head s) + (if token s then 10 else 0) -> work l s' < work l s.
Proof.
  intros ND IN E1 E2 E3 L. unfold work. rewrite E1, E2, E3. assert (X := sumw_upd pw (pcs s) r pc l ND IN). lia.
Qed.
Lemma work_lp l s s' : pcs s' = pcs s -> tail s' = tail s ->
  10 * (tail s - head s') + lw (lp s') + (if token s' then 10 else 0) < 10 * (tail s - head s) + lw (lp s) + (if token s then 10 else 0) -> work l s' < work l s.
Proof. intros E1 E2 L. unfold work. rewrite E1, E2. lia. Qed.
Lemma work_step s t e o s' : BI s t -> internal e -> step s e = (o, Some s') -> s' <> s -> sent o = [] /\ work (sent t) s' < work (sent t) s.
Proof.
  intros B IE. assert (ND := b_ndsent _ _ B). assert (HT := b_head _ _ B). destruct e; try contradiction; cbn [step].
  - unfold step_push, ok. assert (IN : pcs s r <> PNone -> In r (sent t)) by apply (b_sent _ _ B). destruct (pcs s r) eqn:P.
    + intros [= <- <-]; congruence.
    + destruct (rst s r); intros [= <- <-] _; (split; [reflexivity|]); (eapply (work_pc _ s _ r); [exact ND|apply IN; discriminate|reflexivity|reflexivity|reflexivity|]); fields; rewrite P; cbn [pw]; lia.
    + intros [= <- <-] _; (split; [reflexivity|]); (eapply (work_pc _ s _ r); [exact ND|apply IN; discriminate|reflexivity|reflexivity|reflexivity|]); fields; rewrite P; cbn [pw]; lia.
    + intros [= <- <-] _; (split; [reflexivity|]); (eapply (work_pc _ s _ r); [exact ND|apply IN; discriminate|reflexivity|reflexivity|reflexivity|]); fields; rewrite P; destruct (tv =? head s); cbn [pw]; lia.
    + destruct (full s); intros [= <- <-] _; (split; [reflexivity|]); (eapply (work_pc _ s _ r); [exact ND|apply IN; discriminate|reflexivity|reflexivity|reflexivity|]); fields; rewrite P; cbn [pw]; lia.
    + intros [= <- <-] _; (split; [reflexivity|]); (eapply (work_pc _ s _ r); [exact ND|apply IN; discriminate|reflexivity|reflexivity|reflexivity|]); cbn [w_pc w_tail tail head token]; rewrite P; cbn [pw]; lia.
    + intros [= <- <-] _; (split; [reflexivity|]); (eapply (work_pc _ s _ r); [exact ND|apply IN; discriminate|reflexivity|reflexivity|reflexivity|]); fields; rewrite P; destruct (rowid s (tRow s) =? i / bufRow); cbn [pw]; lia.
    + destruct (look (rows s) (i / bufRow)); intros [= <- <-] _; (split; [reflexivity|]); (eapply (work_pc _ s _ r); [exact ND|apply IN; discriminate|reflexivity|reflexivity|reflexivity|]); fields; rewrite P; cbn [pw]; lia.
    + destruct (rst s r); intros [= <- <-] _; (split; [reflexivity|]); (eapply (work_pc _ s _ r); [exact ND|apply IN; discriminate|reflexivity|reflexivity|reflexivity|]); fields; rewrite P; cbn [pw]; lia.
    + intros [= <- <-] _; (split; [reflexivity|]); (eapply (work_pc _ s _ r); [exact ND|apply IN; discriminate|reflexivity|reflexivity|reflexivity|]); fields; rewrite P; cbn [pw]; lia.
    + destruct (cp s); intros [= <- <-] _; (split; [reflexivity|]); (eapply (work_pc _ s _ r); [exact ND|apply IN; discriminate|reflexivity|reflexivity|reflexivity|]); fields; rewrite P; cbn [pw]; destruct (token s); lia.
    + intros [= <- <-]; congruence.
  - assert (LO := b_lp _ _ B). unfold lpok in LO. unfold step_loop, ok. destruct (lp s) eqn:L.
    + destruct (token s) eqn:TK; [intros [= <- <-] _; split; [reflexivity|]; apply work_lp; fields; auto; rewrite L, TK; cbn [lw]; lia|].
      destruct (cp s); intros [= <- <-] N; try congruence; (split; [reflexivity|]); apply work_lp; fields; auto; rewrite L; cbn [lw]; lia.
    + intros [= <- <-] _; (split; [reflexivity|]); apply work_lp; fields; auto; rewrite L; destruct (head s <? tail s); cbn [lw]; lia.
    + destruct (rowid s (hRow s) =? head s / bufRow); [|destruct (look (rows s) (head s / bufRow))]; intros [= <- <-] _; (split; [reflexivity|]); apply work_lp; fields; auto; rewrite L; cbn [lw]; lia.
    + destruct (cst (cells s p (head s mod bufRow))); intros [= <- <-] _; (split; [reflexivity|]); apply work_lp; fields; auto; rewrite L; cbn [lw]; lia.
    + intros [= <- <-] _; (split; [reflexivity|]); apply work_lp; fields; auto; rewrite L; cbn [lw]; lia.
    + intros [= <- <-] _; (split; [reflexivity|]); apply work_lp; fields; auto; rewrite L; cbn [lw]; lia.
    + destruct q as [r|]; [destruct (rst s r)|]; intros [= <- <-] _; (split; [reflexivity|]); apply work_lp; fields; auto; rewrite L; cbn [lw]; lia.
    + destruct (full s); intros [= <- <-] N; [congruence|]. (split; [reflexivity|]); apply work_lp; fields; auto; rewrite L; cbn [lw]; lia.
    + destruct LO as (r & Q & _). assert (head s < tail s) by (rewrite (b_tail _ _ B); apply nth_error_Some; congruence).
      intros [= <- <-] _; (split; [reflexivity|]); apply work_lp; fields; auto; rewrite L; cbn [lw]; lia.
    + intros [= <- <-]; congruence.
Qed.
Lemma effective_work es : forall s t, BI s t -> effective s es -> length es <= work (sent t) s.
Proof.
  induction es as [|e es IH]; intros s t B E; cbn [length]; [lia|]. destruct E as (IE & o & s' & ST & N & E).
  destruct (work_step s t e o s' B IE ST N) as [O W]. specialize (IH s' (t ++ o) (BI_step _ _ _ _ _ B ST) E).
  rewrite sent_app, O, app_nil_r in IH. lia.
Qed.
Lemma sumw_le f l k : (forall x, f x <= k) -> sumw f l <= k * length l.
Proof. intros H. induction l; cbn [sumw fold_right length]; [lia|]. fold (sumw f l). specialize (H a). lia. Qed.
Lemma work_bound s t : BI s t -> work (sent t) s <= 40 * length (sent t) + 19.
Proof.
  intros B. unfold work. assert (X := sumw_le (fun r => pw (pcs s r)) (sent t) 30).
  assert (Y : length (queued t) <= length (sent t)) by (apply NoDup_incl_length; [apply B|apply (queued_sent _ _ B)]).
  rewrite (b_tail _ _ B) at 1.
  assert (lw (lp s) <= 9) by (destruct (lp s); cbn; lia). assert ((if token s then 10 else 0) <= 10) by (destruct (token s); lia).
  assert (forall x, pw (pcs s x) <= 30) by (intros x; destruct (pcs s x); cbn; lia). specialize (X H1). unfold rid in *. lia.
Qed.

(** Send: its own steps *)
Definition rank (c : ppc) : nat :=
  match c with
  | PNone => 0 | PRet => 0 | PWake => 1 | PMark _ _ _ => 2 | PChain _ _ => 3 | PLook _ => 4 | PRow _ => 5
  | PAdd => 6 | PTry => 7 | PHead _ => 8 | PTail => 9 | PCheck => 10
  end.
Fixpoint pushes (r : rid) (es : list ev) : nat :=
  match es with [] => 0 | Push x :: es => (if x =? r then 1 else 0) + pushes r es | _ :: es => pushes r es end.
Lemma step_rank s e o s' r : step s e = (o, Some s') -> pcs s r <> PNone ->
  pcs s' r <> PNone /\ rank (pcs s' r) <= rank (pcs s r) /\ (e = Push r -> rank (pcs s' r) <= rank (pcs s r) - 1).
Proof.
  intros E N.
  assert (K : forall x pc, (x = r -> pc <> PNone /\ rank pc <= rank (pcs s r) - 1) -> upd (pcs s) x pc r <> PNone /\ rank (upd (pcs s) x pc r) <= rank (pcs s r) /\ (Push x = Push r -> rank (upd (pcs s) x pc r) <= rank (pcs s r) - 1)).
  { intros x pc H. destruct (upd_dec (pcs s) x pc r) as [[-> ->]|[D ->]]; [destruct (H eq_refl); repeat split; auto; lia|].
    split; [exact N|]. split; [lia|]. intros [= ->]. congruence. }
  assert (Q : e <> Push r -> pcs s' = pcs s -> pcs s' r <> PNone /\ rank (pcs s' r) <= rank (pcs s r) /\ (e = Push r -> rank (pcs s' r) <= rank (pcs s r) - 1)).
  { intros NE ->. split; [exact N|]. split; [lia|]. congruence. }
  destruct e; cbn [step] in E; unfold ok in E.
  - destruct (pcs s r0) eqn:P; try (injection E as <- <-; apply Q; congruence).
    destruct (rst s r0); injection E as <- <-; try (apply Q; congruence); fields.
    + destruct (upd_dec (pcs s) r0 PCheck r) as [[-> _]|[_ ->]]; [congruence|]. split; [exact N|]. split; [lia|discriminate].
    + destruct (upd_dec (pcs s) r0 PRet r) as [[-> _]|[_ ->]]; [congruence|]. split; [exact N|]. split; [lia|discriminate].
  - destruct (cp s); injection E as <- <- || discriminate; (apply Q; [discriminate|reflexivity]).
  - destruct (rst s r0); injection E as <- <-; (apply Q; [discriminate|reflexivity]).
  - injection E as <- <-; (apply Q; [discriminate|reflexivity]).
  - destruct (rst s r0), (chained s r0) as [[]|]; injection E as <- <-; (apply Q; [discriminate|reflexivity]).
  - destruct (rst s r0), (chained s r0) as [[]|]; injection E as <- <-; (apply Q; [discriminate|reflexivity]).
  - destruct (ch s); injection E as <- <-; (apply Q; [discriminate|reflexivity]).
  - unfold step_push, ok in E. destruct (pcs s r0) eqn:P.
    + injection E as <- <-. split; [exact N|]. split; [lia|]. intros [= ->]. congruence.
    + destruct (rst s r0); injection E as <- <-; fields; apply K; intros ->; rewrite P; cbn [rank]; (split; [discriminate|lia]).
    + injection E as <- <-; fields; apply K; intros ->; rewrite P; cbn [rank]; (split; [discriminate|lia]).
    + injection E as <- <-; fields; apply K; intros ->; rewrite P; destruct (tv =? head s); cbn [rank]; (split; [discriminate|lia]).
    + destruct (full s); injection E as <- <-; fields; apply K; intros ->; rewrite P; cbn [rank]; (split; [discriminate|lia]).
    + injection E as <- <-; fields; apply K; intros ->; rewrite P; cbn [rank]; (split; [discriminate|lia]).
    + injection E as <- <-; fields; apply K; intros ->; rewrite P; destruct (rowid s (tRow s) =? i / bufRow); cbn [rank]; (split; [discriminate|lia]).
    + destruct (look (rows s) (i / bufRow)); injection E as <- <-; fields; apply K; intros ->; rewrite P; cbn [rank]; (split; [discriminate|lia]).
    + destruct (rst s r0); injection E as <- <-; fields; apply K; intros ->; rewrite P; cbn [rank]; (split; [discriminate|lia]).
    + injection E as <- <-; fields; apply K; intros ->; rewrite P; cbn [rank]; (split; [discriminate|lia]).
    + destruct (cp s); injection E as <- <- || discriminate; fields; apply K; intros ->; rewrite P; cbn [rank]; (split; [discriminate|lia]).
    + injection E as <- <-. split; [exact N|]. split; [lia|]. intros [= ->]. rewrite P. cbn. lia.
  - assert (PS : pcs s' = pcs s); [|apply Q; [discriminate|exact PS]]. unfold step_loop, ok in E. destruct (lp s).
    + destruct (token s); [|destruct (cp s)]; injection E as <- <-; reflexivity.
    + injection E as <- <-; reflexivity.
    + destruct (rowid s (hRow s) =? head s / bufRow); [|destruct (look (rows s) (head s / bufRow))]; injection E as <- <-; reflexivity.
    + destruct (cst (cells s p (head s mod bufRow))); injection E as <- <-; reflexivity.
    + injection E as <- <-; reflexivity.
    + injection E as <- <-; reflexivity.
    + destruct q as [x|]; [destruct (rst s x)|]; injection E as <- <-; reflexivity.
    + destruct (full s); injection E as <- <-; reflexivity.
    + injection E as <- <-; reflexivity.
    + injection E as <- <-; reflexivity.
Qed.
Lemma run_rank r es : forall s t s', run s es = (t, Some s') -> pcs s r <> PNone -> rank (pcs s' r) <= rank (pcs s r) - pushes r es /\ pcs s' r <> PNone.
Proof.
  induction es as [|e es IH]; intros s t s' E N; cbn [run pushes] in *.
  - injection E as <- <-. split; [lia|exact N].
  - destruct (step s e) as [o [s1|]] eqn:ST; [|discriminate]. destruct (run s1 es) as [o' f] eqn:Q. injection E as <- ->.
    destruct (step_rank s e o s1 r ST N) as (N1 & L & D). destruct (IH s1 o' s' Q N1) as [L2 N2]. split; [|exact N2].
    destruct e; try lia. destruct (Nat.eqb_spec r0 r) as [->|NE]; [specialize (D eq_refl)|]; lia.
Qed.

(** crashes *)
Lemma crash_run n es t : run (b_init n) es = (t, None) ->
  exists es1 e es2 t1 o s1, es = es1 ++ e :: es2 /\ run (b_init n) es1 = (t1, Some s1) /\ step s1 e = (o, None) /\ t = t1 ++ o.
Proof.
  generalize (b_init n). revert t. induction es as [|e es IH]; intros t s; cbn [run]; [discriminate|].
  destruct (step s e) as [o [s1|]] eqn:ST.
  - destruct (run s1 es) as [o' f] eqn:Q. intros [= <- ->]. destruct (IH o' s1 Q) as (es1 & e' & es2 & t1 & o2 & s2 & -> & R & S & ->).
    exists (e :: es1), e', es2, (o ++ t1), o2, s2. split; [reflexivity|]. cbn [run]. rewrite ST, R. split; [reflexivity|]. split; [exact S|now rewrite app_assoc].
  - intros [= <-]. exists [], e, es, [], o, s. auto.
Qed.
Lemma step_crash s e o : step s e = (o, None) -> cp s = C2 /\ (e = Stop /\ o = [OPanicStop] \/ exists r, e = Push r /\ pcs s r = PWake /\ o = [OPanicSend r]).
Proof.
  destruct e; cbn [step]; unfold ok; intros E.
  - destruct (pcs s r), (rst s r); discriminate.
  - destruct (cp s); try discriminate. injection E as <-. auto.
  - destruct (rst s r); discriminate.
  - discriminate.
  - destruct (rst s r), (chained s r) as [[]|]; discriminate.
  - destruct (rst s r), (chained s r) as [[]|]; discriminate.
  - destruct (ch s); discriminate.
  - unfold step_push, ok in E. destruct (pcs s r) eqn:P; try discriminate.
    + destruct (rst s r); discriminate.
    + destruct (full s); discriminate.
    + destruct (look (rows s) (i / bufRow)); discriminate.
    + destruct (rst s r); discriminate.
    + destruct (cp s); try discriminate. injection E as <-. split; [reflexivity|]. right. eauto.
  - unfold step_loop, ok in E. destruct (lp s); try discriminate.
    + destruct (token s); [|destruct (cp s)]; discriminate.
    + destruct (rowid s (hRow s) =? head s / bufRow); [|destruct (look (rows s) (head s / bufRow))]; discriminate.
    + destruct (cst (cells s p (head s mod bufRow))); discriminate.
    + destruct q as [x|]; [destruct (rst s x)|]; discriminate.
    + destruct (full s); discriminate.
Qed.
