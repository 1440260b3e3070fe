(** Cancelling a context, its requests, its children and the contexts of the handlers of its requests. *)
From Coq Require Import ZArith List Bool Arith Lia.
Import ListNotations.
From Verif Require Import RequestModel.
From Verif Require Import TreeModel TreeSpec TreeProofs TreeBirth TreeCancel TreeHistory.
Open Scope Z_scope.

Lemma delivered_one tr s r : good tr s -> delivered tr r <> [] -> exists v, delivered tr r = [v].
Proof.
  intros G N. destruct (q_dlv _ _ G r) as [(L & _)|(L & _)]; destruct (delivered tr r) as [|v [|]]; cbn in L; try discriminate; try congruence. eauto.
Qed.
Lemma owned tr s c j r : all tr s -> In (ONewRet j c r) tr -> ~ In (CR r) (reg s c) -> (exists v, delivered tr r = [v]) \/ completing s r.
Proof.
  intros [G B K H U] N R. destruct (b_ret _ _ B _ _ _ N) as [M O]. destruct (b_fine _ _ B _ M) as [F|(c' & E & F)]; [left; eapply delivered_one; eauto|].
  destruct O as [O|O]; [congruence|]. assert (c' = c) as -> by congruence. destruct F as [F|F]; [contradiction|now right].
Qed.
Lemma rest_stk tr s : all tr s -> at_rest s -> forall k, stk s k = [].
Proof. intros [G B K H U] A k. apply (q_jb _ _ G), A. Qed.
Lemma rest_reg tr s k c x : all tr s -> at_rest s -> calm tr c x -> In (OSet k c) tr -> ~ In x (reg s c).
Proof.
  intros AL AR UD I. pose proof (rest_stk _ _ AL AR) as R. destruct AL as [G B K H U]. destruct (u_loop _ _ _ _ (U c x UD) k I) as [(f & F & _)|Q]; [|exact Q]. rewrite R in F. destruct F.
Qed.
Lemma rest_done tr s c j r k : all tr s -> at_rest s -> settled tr c r -> In (OSet k c) tr -> In (ONewRet j c r) tr -> exists v, delivered tr r = [v].
Proof.
  intros AL AR UD I N. destruct (owned _ _ _ _ _ AL N (rest_reg _ _ _ _ (CR r) AL AR UD I)) as [Q|(g & a & F)]; [exact Q|]. rewrite (rest_stk _ _ AL AR) in F. destruct F.
Qed.

(** ** C123: cancelling a context completes its requests *)

(** Once the call of Cancel (or Expire) that ended the context has returned, every request made with the context has
    been answered, or is being answered: its Responder is the next thing to be called. *)
Theorem C123_cancel_completes_partial es tr s c k a b j r :
  run init es = (tr, s) -> settled tr c r ->
  tr = a ++ OSet k c :: b -> In (OCancelRet k c) b -> In (ONewRet j c r) tr ->
  (exists v, delivered tr r = [v]) \/ completing s r.
Proof. intros R UD E I N. pose proof (run_all _ _ _ R) as AL. apply (owned _ _ c j r AL N). exact (u_ret _ _ _ _ (a_cancels _ _ AL c (CR r) UD) _ _ _ E I). Qed.
Print Assumptions C123_cancel_completes_partial.

(** When nothing is going on any more, every request made with a cancelled context has been answered, once. *)
Theorem C123_at_rest_partial es tr s c k j r :
  run init es = (tr, s) -> settled tr c r -> at_rest s -> In (OSet k c) tr -> In (ONewRet j c r) tr -> exists v, delivered tr r = [v].
Proof. intros R UD AR I N. eapply rest_done; eauto using run_all. Qed.
Print Assumptions C123_at_rest_partial.

(** No request is answered twice, and an answer is the cancellation or what somebody has answered. *)
Theorem C123_answers es tr s r :
  run init es = (tr, s) -> (length (delivered tr r) <= 1)%nat /\ forall a v b, tr = a ++ ODeliver r v :: b -> v = RcCanceled \/ exists k, In (ORespond k r v) a.
Proof.
  intro R. apply run_all in R. destruct R as [G B K H U]. split; [|intros a v b E; exact (p_del _ _ H a r v b E)]. destruct (q_dlv _ _ G r) as [(-> & _)|(-> & _)]; lia.
Qed.
Print Assumptions C123_answers.

Fixpoint gos (n k : nat) : list ev := match n with O => [] | S n => EGo k :: gos n k end.

(** A request made while the context is cancelled may be lost: Cancel has returned, NewRequest has returned, nothing is
    going on, and the request was not and will not be cancelled. *)
Definition lost : list ev := [ERoot 0; ENew 0 0 0; EGo 0; EGo 0; ECancel 1 0 CxCanceled] ++ gos 6 1 ++ gos 2 0.
Theorem C123_concurrent_refuted : exists es tr s c k a b j r,
  run init es = (tr, s) /\ at_rest s /\ tr = a ++ OSet k c :: b /\ In (OCancelRet k c) b /\ In (ONewRet j c r) tr /\ delivered tr r = [].
Proof.
  exists lost, (fst (run init lost)), (snd (run init lost)), 0%nat, 1%nat, (firstn 2 (fst (run init lost))), (skipn 3 (fst (run init lost))), 0%nat, 0%nat.
  split; [apply surjective_pairing|]. split; [intro k; do 3 (destruct k as [|k]; [vm_compute; reflexivity|]); vm_compute; reflexivity|].
  split; [vm_compute; reflexivity|]. split; [vm_compute; tauto|]. split; [vm_compute; tauto|]. vm_compute. reflexivity.
Qed.
Print Assumptions C123_concurrent_refuted.

Definition undb (tr : list obs) : bool :=
  forallb (fun i => match nth_error tr i with
    | Some (OSet _ c) => forallb (fun o => match o with
        | ONew k d r => if Nat.eqb d c then existsb (fun p => match p with ONewRet k' d' r' => Nat.eqb k k' && Nat.eqb d d' && Nat.eqb r r' | _ => false end) (firstn i tr) else true
        | OChild k d e => if Nat.eqb d c then existsb (fun p => match p with OChildRet k' d' e' => Nat.eqb k k' && Nat.eqb d d' && Nat.eqb e e' | _ => false end) (firstn i tr) else true
        | _ => true end) (firstn i tr)
    | _ => true end) (seq 0 (length tr)).
Lemma undb_ok tr c : undb tr = true -> (forall r, settled tr c r) /\ forall d, settled_child tr c d.
Proof.
  intro H. assert (X : forall a g b, tr = a ++ OSet g c :: b -> (forall k r, In (ONew k c r) a -> In (ONewRet k c r) a) /\ forall k d, In (OChild k c d) a -> In (OChildRet k c d) a); [|split; intros x a g b E k; now apply (X a g b E)].
  intros a g b E. unfold undb in H. rewrite forallb_forall in H. specialize (H (length a)). rewrite E in H. rewrite nth_error_app2, Nat.sub_diag in H by lia. cbn in H.
  rewrite firstn_app, Nat.sub_diag, firstn_all in H. cbn [firstn] in H. rewrite app_nil_r in H. assert (Q : In (length a) (seq 0 (length (a ++ OSet g c :: b)))) by (apply in_seq; rewrite app_length; cbn; lia). apply H in Q.
  rewrite forallb_forall in Q. split; intros k d I; apply Q in I; rewrite Nat.eqb_refl in I; apply existsb_exists in I; destruct I as (p & I & P); destruct p; try discriminate.
  all: apply andb_prop in P; destruct P as [P P3]; apply andb_prop in P; destruct P as [P1 P2]; apply Nat.eqb_eq in P1, P2, P3; now subst.
Qed.

(** That the answer may still be on its way when Cancel returns cannot be helped: somebody else is about to give it. *)
Definition late_ : list ev := [ERoot 0; ENew 0 0 0] ++ gos 4 0 ++ [EPend 0; EFly 0; ERespond 1 0 (Bytes RcOK)] ++ gos 5 1 ++ [ECancel 2 0 CxCanceled] ++ gos 4 2.
Theorem C123_on_its_way_refuted : exists es tr s c k a b j r,
  run init es = (tr, s) /\ settled tr c r /\ tr = a ++ OSet k c :: b /\ In (OCancelRet k c) b /\ In (ONewRet j c r) tr /\ delivered tr r = [].
Proof.
  exists late_, (fst (run init late_)), (snd (run init late_)), 0%nat, 2%nat, (firstn 4 (fst (run init late_))), (skipn 5 (fst (run init late_))), 0%nat, 0%nat.
  split; [apply surjective_pairing|]. split; [apply undb_ok; vm_compute; reflexivity|].
  split; [vm_compute; reflexivity|]. split; [vm_compute; tauto|]. split; [vm_compute; tauto|]. vm_compute. reflexivity.
Qed.
Print Assumptions C123_on_its_way_refuted.

(** ** C124: cancelling a context reaches the whole tree *)

Lemma reached tr s c y k : all tr s -> at_rest s -> In (OSet k c) tr -> reach tr c y -> exists g, In (OSet g y) tr.
Proof.
  intros AL AR I R. induction R as [|y j r z R IH N UD HD CA|y j d R IH N UD DN]; [eauto| |].
  - destruct IH as (g & IH). destruct (rest_done _ _ _ _ _ _ AL AR UD IH N) as (v & Q). destruct AL as [G B K H U].
    assert (D : In (ODeliver r v) tr). { assert (Q' : In v (delivered tr r)) by (rewrite Q; now left). apply in_flat_map in Q'. destruct Q' as (o & O & Q'). destruct o; try contradiction. destruct (Nat.eqb_spec r0 r) as [->|]; [|contradiction]. destruct Q' as [->|[]]. exact O. }
    apply (h_dead _ _ K). apply (h_del _ _ K r); [now rewrite <- (CA v D)|now apply (h_hc _ _ K)].
  - destruct IH as (g & IH). pose proof (rest_reg _ _ _ _ (CX d) AL AR UD IH) as E. destruct AL as [G B K H U]. destruct (h_kept _ _ K _ _ _ N) as [Q|[Q|Q]].
    + now apply (h_dead _ _ K).
    + contradiction.
    + apply in_split in Q. destruct Q as (a & b & Q). destruct (DN a b Q) as (h & D). exists h. rewrite Q. apply in_app_iff. now left.
Qed.

(** When nothing is going on any more, the cancellation of a context has cancelled the contexts of the handlers that had
    taken its requests, its children, their children, and so on, and every request made with any of these has been
    answered. *)
Theorem C124_whole_tree_partial es tr s c k y :
  run init es = (tr, s) -> at_rest s -> In (OSet k c) tr -> reach tr c y ->
  (exists g, In (OSet g y) tr) /\ forall j r, In (ONewRet j y r) tr -> settled tr y r -> exists v, delivered tr r = [v].
Proof.
  intros R AR I RE. apply run_all in R. pose proof (reached _ _ _ _ _ R AR I RE) as D. split; [exact D|]. destruct D as (g & D). intros j r N UD. eapply rest_done; eauto.
Qed.
Print Assumptions C124_whole_tree_partial.

Lemma in_delivered tr r v : In (ODeliver r v) tr -> In v (delivered tr r).
Proof. intro H. apply in_flat_map. exists (ODeliver r v). split; [exact H|]. rewrite Nat.eqb_refl. now left. Qed.
Fixpoint set_firstb (d : nat) (l : list obs) : bool :=
  match l with [] => true | o :: m => (match o with ODone e => if Nat.eqb e d then negb (existsb (fun p => match p with OSet _ e => Nat.eqb e d | _ => false end) m) else true | _ => true end) && set_firstb d m end.
Lemma set_first d l : set_firstb d l = true -> forall a g b, l = a ++ ODone d :: b -> ~ In (OSet g d) b.
Proof.
  induction l as [|o l IH]; intros H [|z a] g b E; cbn in E; try discriminate; injection E as -> ->; cbn in H; apply andb_prop in H; destruct H as [H1 H2].
  - rewrite Nat.eqb_refl in H1. intro I. apply negb_true_iff in H1. enough (existsb (fun p => match p with OSet _ e => Nat.eqb e d | _ => false end) b = true) by congruence. apply existsb_exists. exists (OSet g d). split; [exact I|apply Nat.eqb_refl].
  - now apply (IH H2 a g b).
Qed.
(** A request, a handler that has taken it, a request of the handler, a child of the handler's context with a request,
    and the context is cancelled. *)
Definition tree : list ev :=
  [ERoot 0; ENew 0 0 0] ++ gos 4 0 ++ [EPend 0; EHandle 0 1; ENew 0 1 1] ++ gos 4 0 ++ [EChild 0 1 2] ++ gos 4 0 ++ [ENew 0 2 2] ++ gos 4 0 ++
  [EPend 2; EFly 2; ECancel 5 0 CxCanceled] ++ gos 40 5 ++ [EDone 3 2] ++ gos 3 3 ++ gos 40 5.
Theorem C124_example : exists es tr s k,
  run init es = (tr, s) /\ at_rest s /\ (forall y r, settled tr y r) /\ In (OSet k 0) tr /\ In (OCancelRet k 0) tr /\ reach tr 0 1 /\ reach tr 0 2 /\
  (In (ONewRet 0 0 0) tr /\ In (ONewRet 0 1 1) tr /\ In (ONewRet 0 2 2) tr) /\ delivered tr 0 = [RcCanceled] /\ delivered tr 1 = [RcCanceled] /\ delivered tr 2 = [RcCanceled].
Proof.
  exists tree, (fst (run init tree)), (snd (run init tree)), 5%nat. split; [apply surjective_pairing|]. split; [intro k; do 6 (destruct k as [|k]; [vm_compute; reflexivity|]); vm_compute; reflexivity|].
  assert (UD : undb (fst (run init tree)) = true) by (vm_compute; reflexivity). split; [intro y; now apply undb_ok|]. split; [vm_compute; tauto|]. split; [vm_compute; tauto|].
  assert (R1 : reach (fst (run init tree)) 0 1).
  { apply reach_handler with 0%nat 0%nat 0%nat; [apply reach_self|vm_compute; tauto|now apply undb_ok|vm_compute; tauto|]. intros v I. assert (Q : In v (delivered (fst (run init tree)) 0)) by exact (in_delivered _ _ _ I). clear I. revert Q. vm_compute. intros [<-|[]]. reflexivity. }
  split; [exact R1|]. split.
  { apply reach_child with 1%nat 0%nat; [exact R1|vm_compute; tauto|now apply undb_ok|]. intros a b E. exists 5%nat.
    assert (In (OSet 5 2) a \/ In (OSet 5 2) b) as [I|I]; [|exact I|].
    - assert (I : In (OSet 5 2) (fst (run init tree))) by (vm_compute; tauto). rewrite E in I. apply in_app_iff in I. destruct I as [I|[I|I]]; [auto|discriminate|auto].
    - exfalso. revert I. eapply set_first; [|exact E]. vm_compute. reflexivity. }
  split; [split; [|split]; vm_compute; tauto|]. split; [|split]; vm_compute; reflexivity.
Qed.
Print Assumptions C124_example.

(** Cancel does not get that far when a child of a child is never Done: it cancels the first child, whose cancelAll
    waits for its own child for ever, and the request after it is never cancelled. *)
Definition stuck : list ev :=
  [ERoot 0; EChild 0 0 1] ++ gos 4 0 ++ [EChild 0 1 2] ++ gos 4 0 ++ [ENew 0 0 5] ++ gos 4 0 ++ [EPend 5; EFly 5; ECancel 9 0 CxCanceled] ++ gos 5 9.
Definition goes (e : ev) : Prop := exists k, e = EGo k.
Definition spins (s : sys) : Prop :=
  (forall k, jb s k = (if Nat.eqb k 9 then Some (JCancel 0) else None)) /\ (forall k, k <> 9%nat -> stk s k = []) /\
  (dead (cx s 1) = false -> stk s 9 = [FCas CxCanceled 1; FCall 0 [CR 5]]) /\
  sl (cx s 1) = [CX 2] /\ mp (cx s 1) = [] /\ mu (cx s 1) = false /\ sl (cx s 2) = [] /\ mp (cx s 2) = [] /\
  exists top, stk s 9 = top ++ [FCall 0 [CR 5]] /\
  (top = [FCas CxCanceled 1] /\ dead (cx s 1) = false \/ In top [[FL1 1]; [FL2 1]; [FColl 1]; [FCall 1 [CX 2]]; [FCall 1 []]; [FCas CxCanceled 2; FCall 1 []]; [FL1 2; FCall 1 []]; [FL2 2; FCall 1 []]] /\ dead (cx s 1) = true).
Lemma spins_step s e : spins s -> goes e -> (forall r v, ~ In (ODeliver r v) (fst (step s e))) /\ spins (snd (step s e)).
Proof.
  intros (J & N & D & S1 & M1 & U1 & S2 & M2 & top & T & C) (k & ->). destruct (Nat.eq_dec k 9) as [->|NE].
  2:{ cbn. rewrite (N k NE), J. apply Nat.eqb_neq in NE as NE'. rewrite NE'. cbn. split; [easy|]. repeat split; auto. eauto. }
  assert (J' : forall k, jb s k = (if Nat.eqb k 9 then Some (JCancel 0) else None)) by exact J.
  assert (N' : forall s' fs, stk s' = stk s -> forall k, k <> 9%nat -> fupd (stk s') 9 fs k = []) by (intros s' fs E k K; rewrite fupd_other by exact K; now rewrite E, N).
  destruct C as [[-> C]|[C DD]].
  - cbn in T. cbn [step]. rewrite T. cbn [go]. rewrite C. cbn [fst snd]. split; [cbn; intuition discriminate|].
    split; [exact J|]. split; [apply N'; reflexivity|]. cbn. split; [discriminate|]. repeat (split; [assumption|]). exists [FL1 1]. split; [reflexivity|]. right. split; [cbn; auto|reflexivity].
  - cbn [In] in C. cbn [step].
    repeat match type of C with _ \/ _ => destruct C as [<-|C] end; try contradiction; cbn in T; rewrite T; cbn [go]; rewrite ?M1, ?S1, ?U1, ?M2, ?S2; cbn [fst snd app cancel_of].
    all: try (destruct (dead (cx s 2)) eqn:D2; cbn [fst snd app]).
    all: (split; [cbn; intuition discriminate|]); (split; [exact J|]); (split; [apply N'; reflexivity|]); cbn; rewrite ?DD; (split; [discriminate|]); repeat (split; [assumption|]).
    all: match goal with |- exists _, [?a; ?b; _] = _ /\ _ => exists [a; b] | |- exists _, [?a; _] = _ /\ _ => exists [a] end; split; [reflexivity|right; split; [|reflexivity]].
    all: cbn; auto 12.
Qed.
Theorem C124_stuck_child_refuted : exists es, forall l, Forall goes l ->
  exists tr s, run init (es ++ l) = (tr, s) /\ settled tr 0 5 /\
  In (OSet 9 0) tr /\ In (ONewRet 0 0 5) tr /\ delivered tr 5 = [] /\ jb s 9 = Some (JCancel 0).
Proof.
  exists stuck. assert (B : spins (snd (run init stuck))).
  { split; [intro k; do 10 (destruct k as [|k]; [vm_compute; reflexivity|]); vm_compute; reflexivity|]. split; [intros k K; do 9 (destruct k as [|k]; [vm_compute; reflexivity|]); destruct k as [|k]; [congruence|vm_compute; reflexivity]|].
    split; [vm_compute; trivial|]. repeat (split; [vm_compute; reflexivity|]). exists [FCas CxCanceled 1]. split; [vm_compute; reflexivity|]. left. split; [reflexivity|vm_compute; reflexivity]. }
  assert (P : forall l, Forall goes l -> exists o, fst (run init (stuck ++ l)) = fst (run init stuck) ++ o /\ delivered o 5 = [] /\ spins (snd (run init (stuck ++ l)))).
  { induction l as [|e l IH] using rev_ind; intro F; [exists []; rewrite !app_nil_r; auto|]. apply Forall_app in F. destruct F as [F1 F2]. inversion F2 as [|? ? F3]; subst. destruct (IH F1) as (o & E & D & S).
    rewrite app_assoc, run_snoc. destruct (run init (stuck ++ l)) as [t s1] eqn:Q. cbn [fst snd] in *. destruct (spins_step _ _ S F3) as [N S']. destruct (step s1 e) as [o1 s2]. cbn [fst snd] in *. exists (o ++ o1). split; [rewrite E, <- app_assoc; reflexivity|]. split; [|exact S'].
    unfold delivered in *. rewrite flat_map_app, D. cbn. induction o1 as [|b o1 IH1]; [reflexivity|]. cbn. rewrite IH1 by (intros r v I; apply (N r v); now right). destruct b as [| | | | | | | | |r v|]; trivial. elim (N r v). now left. }
  intros l F. destruct (P l F) as (o & E & D & S). exists (fst (run init (stuck ++ l))), (snd (run init (stuck ++ l))). split; [apply surjective_pairing|]. split.
  { pose proof (run_all _ _ _ (surjective_pairing (run init (stuck ++ l)))) as AL. destruct AL as [_ _ _ H _]. assert (N0 : In (ONew 0 0 5) (fst (run init stuck))) by (vm_compute; tauto). assert (R0 : In (ONewRet 0 0 5) (fst (run init stuck))) by (vm_compute; tauto). assert (UD : undb (fst (run init stuck)) = true) by (vm_compute; reflexivity).
    apply undb_ok with (c := 0%nat) in UD. destruct UD as [UD _]. intros a g b E' k I. rewrite E in E'. destruct (split_app _ _ _ _ _ E') as [(b' & Q & _)|(a' & -> & _)]; [now apply (UD 5%nat a g b' Q)|].
    assert (k = 0%nat) as ->. { apply (p_one _ _ H k 0%nat 5%nat 0%nat 0%nat); rewrite E; [rewrite E'; apply in_app_iff; now left|apply in_app_iff; now left]. }
    apply in_app_iff. now left. }
  rewrite E. split; [apply in_app_iff; left; vm_compute; tauto|]. split; [apply in_app_iff; left; vm_compute; tauto|]. split; [|apply S].
  unfold delivered in *. rewrite flat_map_app, D. vm_compute. reflexivity.
Qed.
Print Assumptions C124_stuck_child_refuted.

(** ** C125: a request made with a cancelled context *)

(** When NewRequest is called on a context that is cancelled or expired already, then by the time it returns the Responder
    of the request has been called, once, with RcCanceled. *)
Theorem C125_dead_context es tr s a k c r b k' c' d g :
  run init es = (tr, s) -> tr = a ++ ONew k c r :: b ++ ONewRet k' c' r :: d -> In (OSet g c) a -> delivered (a ++ ONew k c r :: b) r = [RcCanceled].
Proof.
  intros R E I.
  assert (E1 : tr = (a ++ ONew k c r :: b ++ [ONewRet k' c' r]) ++ d) by (rewrite E, <- app_assoc; cbn; now rewrite <- app_assoc).
  destruct (run_cut _ _ _ R _ _ E1) as (es1 & s1 & R1). pose proof (run_all _ _ _ R1) as [G B K H U].
  assert (N : own (rq s1 r) = None) by (eapply (p_late _ _ H a k c r (b ++ [ONewRet k' c' r]) g); auto).
  assert (Q : In (ONewRet k' c' r) (a ++ ONew k c r :: b ++ [ONewRet k' c' r])) by (apply in_app_iff; right; right; apply in_elt).
  destruct (b_ret _ _ B _ _ _ Q) as [M _]. destruct (b_fine _ _ B _ M) as [F|(c1 & F & _)]; [|congruence]. destruct (delivered_one _ _ _ G F) as (v & F').
  assert (T : a ++ ONew k c r :: b ++ [ONewRet k' c' r] = (a ++ ONew k c r :: b) ++ [ONewRet k' c' r]) by now rewrite <- app_assoc.
  rewrite T in *. assert (DV : delivered (a ++ ONew k c r :: b) r = [v]) by (rewrite delivered_app in F'; cbn in F'; now rewrite app_nil_r in F'). rewrite DV. f_equal.
  assert (J : In v (delivered (a ++ ONew k c r :: b) r)) by (rewrite DV; now left). apply in_flat_map in J. destruct J as (o & O & J). destruct o as [| | | | | | | | |q w|]; try contradiction. destruct (Nat.eqb_spec q r) as [->|]; [|contradiction]. destruct J as [->|[]].
  apply in_split in O. destruct O as (x & y & O). destruct (p_del _ _ H x r v (y ++ [ONewRet k' c' r])) as [W|(h & W)]; [rewrite O, <- app_assoc; reflexivity|exact W|]. exfalso.
  apply in_split in W. destruct W as (x1 & x2 & ->). destruct (p_resp _ _ H x1 h r v (x2 ++ ODeliver r v :: y ++ [ONewRet k' c' r])) as (g1 & c1 & W); [rewrite O, <- !app_assoc; reflexivity|].
  eapply (p_once _ _ H (a ++ ONew k c r :: b) k' c' r []); [reflexivity|]. rewrite O. apply in_app_iff. left. apply in_app_iff. left. exact W.
Qed.
Print Assumptions C125_dead_context.

Definition tooLate : list ev := [ERoot 0; ECancel 1 0 CxCanceled] ++ gos 4 1 ++ [ENew 0 0 7] ++ gos 10 0.
Theorem C125_example : exists es tr s k c r a b k' c' d g,
  run init es = (tr, s) /\ tr = a ++ ONew k c r :: b ++ ONewRet k' c' r :: d /\ In (OSet g c) a.
Proof.
  exists tooLate, (fst (run init tooLate)), (snd (run init tooLate)), 0%nat, 0%nat, 7%nat, [OCancel 1 0 CxCanceled; OSet 1 0; OCancelRet 1 0], [ODeliver 7 RcCanceled], 0%nat, 0%nat, [], 1%nat.
  split; [apply surjective_pairing|]. split; [vm_compute; reflexivity|]. cbn. tauto.
Qed.
