(** C142: calls that nobody disturbs return. *)
From Coq Require Import ZArith List Bool Arith Lia.
Import ListNotations.
From Verif Require Import RequestModel.
From Verif Require Import TreeModel TreeSpec TreeProofs TreeBirth TreeCancel TreeHistory TreeProps CauseSpec CauseProps TreeTidy ReturnSpec TreeReturn.
Open Scope Z_scope.

Lemma rest_nokid es tr s : run init es = (tr, s) -> at_rest s -> children_done tr -> nokid s.
Proof.
  intros R AR CD p d I. pose proof (run_tidy _ _ _ R) as [G B K W T]. pose proof (run_given_back _ _ _ R) as U. pose proof (fun g => q_jb _ _ G g (AR g)) as E.
  destruct (w_reg _ _ W _ _ I) as (k & C). destruct (CD _ _ _ C) as [D F].
  assert (NE : ~ early tr d) by (intros (a & b & Q & N); apply F in Q; now apply N in Q).
  assert (CR' : In (OChildRet k p d) tr) by (apply in_split in D; destruct D as (a & b & Q); pose proof (F _ _ Q) as X; rewrite Q; apply in_app_iff; now left).
  destruct (v_ret _ _ U _ _ _ CR') as [X|[X|[(g & X)|X]]]; [contradiction| |rewrite E in X; destruct X|contradiction].
  destruct (v_done _ _ U _ D) as [Y|[Y|(g & Y)]]; [contradiction|congruence|]. rewrite E in Y. destruct Y.
Qed.
Lemma returns k (s0 s s' : sys) j : at_rest s0 -> jb s' = fupd (jb s0) k (Some j) -> stk s' k = [] -> exists o s2, step s' (EGo k) = (o, s2) /\ at_rest s2 /\ (forall c, j = JCancel c -> o = [OCancelRet k c]) /\ cx s2 = cx s' /\ stk s2 = stk s'.
Proof.
  intros AR J E. cbn [step]. rewrite E, J, fupd_same. destruct (ret s' k j) as [o s2] eqn:R. destruct (ret_rq _ _ _ _ _ R) as (ES & EJ & EX & _). exists o, s2. split; [reflexivity|]. split; [|split; [|now split]].
  - intro g. rewrite EJ, J. unfold fupd. destruct (Nat.eqb g k); [reflexivity|apply AR].
  - intros c ->. cbn in R. now injection R as <- _.
Qed.
Lemma alone_call k es tr s j f o rc rr n : run init es = (tr, s) -> at_rest s -> children_done tr -> forall e, step s e = (o, set_stk (set_jb s k (Some j)) k [f]) ->
  (forall c, rc c < n)%nat -> (forall r, rr r < n)%nat -> (forall r c, own (rq s r) = Some c -> rc c < rr r)%nat -> (forall r x, hc (rq s r) = Some x -> rr r < rc x)%nat ->
  alone k rc rr (tr ++ o) (set_stk (set_jb s k (Some j)) k [f]).
Proof.
  intros R AR CD e ST R1 R2 R3 R4. pose proof (run_tidy _ _ _ R) as [G B K W T]. split; trivial.
  - exists (es ++ [e]). rewrite run_snoc, R, ST. reflexivity.
  - intros g N. cbn. rewrite fupd_other by exact N. apply (q_jb _ _ G), AR.
  - intros c d. exact (rest_nokid _ _ _ R AR CD c d).
Qed.

(** When nothing is going on, and Done has been called for all children: Cancel, Expire and every way to answer a request
    return after finitely many steps of the goroutine that calls them, whatever requests there are, however deep the
    tree of handlers is. *)
Theorem C142_cancel_returns_partial es tr s k e :
  run init es = (tr, s) -> at_rest s -> children_done tr ->
  (exists c w, e = ECancel k c w) \/ (exists r a, e = ERespond k r a) ->
  exists n, at_rest (snd (run s (call_and_run k e n))).
Proof.
  intros R AR CD H. destruct (t_rk _ (y_tidy _ _ (run_tidy _ _ _ R))) as (rc & rr & n & R1 & R2 & R3 & R4).
  assert (FIN : forall j f o, step s e = (o, set_stk (set_jb s k (Some j)) k [f]) -> reaches k rc rr (tr ++ o) (set_stk (set_jb s k (Some j)) k [f]) [] (fun _ => True) -> exists n, at_rest (snd (run s (call_and_run k e n)))).
  { intros j f o ST (t & s2 & [(m & B1) B2 B3 B4 B5 B6 B7] & _). destruct (returns k s s s2 j AR B4 B3) as (o3 & s3 & S3 & AR3 & _). exists (m + 1)%nat. unfold call_and_run. cbn [run]. rewrite ST, repeat_app, run_app, B1. cbn [repeat run]. rewrite S3. exact AR3. }
  destruct H as [(c & w & ->)|(r & a & ->)].
  - destruct (cborn (cx s c)) eqn:CB; [|exists 0%nat; cbn; rewrite CB; exact AR].
    assert (ST : step s (ECancel k c w) = ([OCancel k c w], set_stk (set_jb s k (Some (JCancel c))) k [FCas w c])) by (cbn [step]; rewrite CB; unfold call; now rewrite AR).
    pose proof (alone_call k _ _ _ _ _ _ rc rr n R AR CD _ ST R1 R2 R3 R4) as A1. eapply FIN; [exact ST|].
    assert (X : reaches k rc rr (tr ++ [OCancel k c w]) (set_stk (set_jb s k (Some (JCancel c))) k [FCas w c]) [] (fun s' => dead (cx s' c) = true /\ (dead (cx s c) = false -> reg s' c = []))).
    { apply (ctx_always k rc rr n R1 R2 c _ _ [] w A1); [cbn; now rewrite fupd_same|intros q _; reflexivity]. }
    destruct X as (t & s2 & X & _). exists t, s2. now split.
  - destruct (made (rq s r)) eqn:MD; [|exists 0%nat; cbn; rewrite MD; exact AR].
    assert (ST : step s (ERespond k r a) = ([ORespond k r (code_of a)], set_stk (set_jb s k (Some (JRespond r a))) k [FLk r a])) by (cbn [step]; rewrite MD; unfold call; now rewrite AR).
    pose proof (alone_call k _ _ _ _ _ _ rc rr n R AR CD _ ST R1 R2 R3 R4) as A1. eapply FIN; [exact ST|].
    apply (respond_always k rc rr n R1 R2 _ _ r a); [exact A1|]. cbn. now rewrite fupd_same.
Qed.
Print Assumptions C142_cancel_returns_partial.

(** And when Cancel, or Expire, of a context that was alive has returned, every request made through that context has its
    response, one. *)
Theorem C142_cancel_answers_partial es tr s k c w :
  run init es = (tr, s) -> at_rest s -> children_done tr -> cborn (cx s c) = true -> Alive s c = true ->
  exists n t s', run s (call_and_run k (ECancel k c w) n) = (t, s') /\ at_rest s' /\ In (OCancelRet k c) t /\ Alive s' c = false /\
  forall j r, In (ONewRet j c r) tr -> exists v, delivered (tr ++ t) r = [v].
Proof.
  intros R AR CD CB AL. destruct (t_rk _ (y_tidy _ _ (run_tidy _ _ _ R))) as (rc & rr & n & R1 & R2 & R3 & R4).
  assert (DD : dead (cx s c) = false) by (unfold Alive in AL; unfold dead; destruct (st (cx s c)); [discriminate|reflexivity]).
  assert (ST : step s (ECancel k c w) = ([OCancel k c w], set_stk (set_jb s k (Some (JCancel c))) k [FCas w c])) by (cbn [step]; rewrite CB; unfold call; now rewrite AR).
  pose proof (alone_call k _ _ _ _ _ _ rc rr n R AR CD _ ST R1 R2 R3 R4) as A1.
  assert (X : reaches k rc rr (tr ++ [OCancel k c w]) (set_stk (set_jb s k (Some (JCancel c))) k [FCas w c]) [] (fun s' => dead (cx s' c) = true /\ (dead (cx s c) = false -> reg s' c = []))).
  { apply (ctx_always k rc rr n R1 R2 c _ _ [] w A1); [cbn; now rewrite fupd_same|intros q _; reflexivity]. }
  destruct X as (t & s2 & [(m & B1) B2 B3 B4 B5 B6 B7] & D2 & X). specialize (X DD). destruct (returns k s s s2 _ AR B4 B3) as (o3 & s3 & S3 & AR3 & O3 & CX3 & ST3). rewrite (O3 c eq_refl) in *.
  assert (RUN : run s (call_and_run k (ECancel k c w) (m + 1)) = ([OCancel k c w] ++ t ++ [OCancelRet k c], s3)).
  { unfold call_and_run. cbn [run]. rewrite ST, repeat_app, run_app, B1. cbn [repeat run]. rewrite S3. reflexivity. }
  exists (m + 1)%nat, ([OCancel k c w] ++ t ++ [OCancelRet k c]), s3. split; [exact RUN|].
  assert (RR : run init (es ++ call_and_run k (ECancel k c w) (m + 1)) = (tr ++ [OCancel k c w] ++ t ++ [OCancelRet k c], s3)) by (rewrite run_app, R, RUN; reflexivity).
  pose proof (run_all _ _ _ RR) as ALL. split; [exact AR3|]. split; [cbn; right; apply in_app_iff; right; now left|]. split.
  - unfold Alive. unfold dead in D2. rewrite CX3. destruct (st (cx s2 c)); [reflexivity|discriminate].
  - intros j r I. assert (I' : In (ONewRet j c r) (tr ++ [OCancel k c w] ++ t ++ [OCancelRet k c])) by (apply in_app_iff; now left).
    destruct (owned _ _ _ _ _ ALL I') as [Q|(g & a & Q)]; [unfold reg; rewrite CX3; change (~ In (CR r) (reg s2 c)); rewrite X; easy|exact Q|]. rewrite (rest_stk _ _ ALL AR3) in Q. destruct Q.
Qed.
Print Assumptions C142_cancel_answers_partial.

(** ** making requests and children, and Done *)
Definition quiets (k : nat) (s : sys) : Prop := exists n, at_rest (snd (run s (repeat (EGo k) n))).
Lemma quiets_step k s f rest o s' : stk s k = f :: rest -> go s k f rest = (o, s') -> quiets k s' -> quiets k s.
Proof. intros E G (n & Q). exists (S n). cbn [repeat run step]. rewrite E, G. destruct (run s' (repeat (EGo k) n)). exact Q. Qed.
Lemma quiets_ret k s : stk s k = [] -> (forall g, g <> k -> jb s g = None) -> quiets k s.
Proof.
  intros E J. destruct (jb s k) as [j|] eqn:JK.
  - exists 1%nat. cbn [repeat run step]. rewrite E, JK. destruct (ret s k j) as [o s2] eqn:R. destruct (ret_rq _ _ _ _ _ R) as (_ & EJ & _). intro g. cbn. rewrite EJ. unfold fupd. destruct (Nat.eqb_spec g k); [reflexivity|now apply J].
  - exists 0%nat. intro g. cbn. destruct (Nat.eq_dec g k) as [->|N]; [exact JK|now apply J].
Qed.
Lemma quiets_call k s e o s' : step s e = (o, s') -> quiets k s' -> exists n, at_rest (snd (run s (call_and_run k e n))).
Proof. intros ST (n & Q). exists n. unfold call_and_run. cbn [run]. rewrite ST. destruct (run s' (repeat (EGo k) n)). exact Q. Qed.
Lemma parent_born es tr s : run init es = (tr, s) -> forall k p d, In (OChild k p d) tr -> cborn (cx s p) = true.
Proof.
  revert es tr s. apply (run_ind (fun tr s => forall k p d, In (OChild k p d) tr -> cborn (cx s p) = true)); [easy|]. intros tr s o s' IH M k p d I.
  assert (MO : cborn (cx s p) = true -> cborn (cx s' p) = true).
  { clear I. destruct M as [|k0 f rest o fs s1 E H|k0 j o s' E J R|k0 j f o s1 J C|o s' F]; trivial.
    - cbn. intro X. destruct (eff_cx _ _ _ _ _ _ p H); congruence.
    - destruct (ret_rq _ _ _ _ _ R) as (_ & _ & -> & _). trivial.
    - cbn. destruct C; trivial. cbn. unfold fupd. destruct (Nat.eqb_spec p d0) as [->|]; trivial.
    - destruct F; trivial; cbn; unfold fupd; [destruct (Nat.eqb_spec p c) as [->|]|destruct (Nat.eqb_spec p x) as [->|]]; trivial. }
  apply in_app_iff in I. destruct I as [I|I]; [apply MO; now apply (IH k p d)|]. apply MO. destruct M as [|k0 f rest o fs s1 E H|k0 j o s' E J R|k0 j f o s1 J C|o s' F].
  - destruct I.
  - destruct H; cbn in I; intuition discriminate.
  - destruct j; cbn in R; injection R as <- <-; cbn in I; intuition discriminate.
  - destruct C; cbn in I; destruct I as [I|[]]; try discriminate. now injection I as <- <- <-.
  - destruct F; cbn in I; intuition discriminate.
Qed.

(** When nothing is going on, NewRequest, Child and Done return; whether there are children or not. *)
Theorem C142_make_returns es tr s k e :
  run init es = (tr, s) -> at_rest s ->
  (exists c r, e = ENew k c r) \/ (exists c d, e = EChild k c d) \/ (exists d, e = EDone k d) ->
  exists n, at_rest (snd (run s (call_and_run k e n))).
Proof.
  intros R AR H. pose proof (run_tidy _ _ _ R) as [G B K W T]. pose proof (fun g => q_jb _ _ G g (AR g)) as E.
  assert (MU : forall c, mu (cx s c) = false) by (intro c; destruct (mu (cx s c)) eqn:M; trivial; destruct (t_mu _ T _ M) as (g & x & I); rewrite E in I; destruct I).
  assert (LK : forall r, lock (rq s r) = None) by (intro r; destruct (lock (rq s r)) as [g|] eqn:L; trivial; pose proof (q_locks _ _ G r g) as Q; rewrite L, E in Q; cbn in Q; rewrite Nat.eqb_refl in Q; discriminate).
  assert (JN : forall (j : job) g, g <> k -> fupd (jb s) k (Some j) g = None) by (intros j g N; rewrite fupd_other by exact N; apply AR).
  destruct H as [(c & r & ->)|[(c & d & ->)|(d & ->)]].
  - destruct (cborn (cx s c)) eqn:CB; [|exists 0%nat; cbn; rewrite CB; exact AR]. destruct (born (rq s r)) eqn:BR; [exists 0%nat; cbn; rewrite CB, BR; exact AR|].
    destruct (t_new _ T r BR) as [F1 F2 F3 F4]. pose proof (b_own _ _ B _ BR) as F5.
    eapply quiets_call; [cbn [step]; rewrite CB, BR; cbn [andb negb]; unfold call; rewrite AR; reflexivity|]. destruct (dead (cx s c)) eqn:D.
    + eapply quiets_step; [cbn; apply fupd_same|cbn; rewrite D; reflexivity|]. cbn [app].
      eapply quiets_step; [cbn; apply fupd_same|cbn; rewrite ?fupd_same; cbn; rewrite LK; reflexivity|].
      eapply quiets_step; [cbn; apply fupd_same|cbn; rewrite ?fupd_same; cbn; rewrite F2; reflexivity|].
      eapply quiets_step; [cbn; apply fupd_same|cbn; reflexivity|].
      eapply quiets_step; [cbn; apply fupd_same|cbn; rewrite ?fupd_same; cbn; rewrite ?fupd_same; cbn; rewrite F3; reflexivity|].
      eapply quiets_step; [cbn; apply fupd_same|cbn; rewrite ?fupd_same; cbn; rewrite ?fupd_same; cbn; rewrite F5; reflexivity|].
      eapply quiets_step; [cbn; apply fupd_same|cbn; reflexivity|].
      eapply quiets_step; [cbn; apply fupd_same|cbn; reflexivity|].
      eapply quiets_step; [cbn; apply fupd_same|cbn; reflexivity|].
      apply quiets_ret; [cbn; apply fupd_same|cbn; apply JN].
    + eapply quiets_step; [cbn; apply fupd_same|cbn; rewrite D; reflexivity|]. cbn [app].
      eapply quiets_step; [cbn; apply fupd_same|cbn; rewrite MU, D; reflexivity|].
      eapply quiets_step; [cbn; apply fupd_same|cbn [go]; reflexivity|].
      apply quiets_ret; [cbn; apply fupd_same|]. cbn. unfold register. destruct (_ <? 2)%nat; cbn; apply JN.
  - destruct (cborn (cx s c)) eqn:CB; [|exists 0%nat; cbn; rewrite CB; exact AR]. destruct (cborn (cx s d)) eqn:BR; [exists 0%nat; cbn; rewrite CB, BR; exact AR|].
    assert (N : c <> d) by congruence. assert (RG : reg s d = []).
    { apply reg_nil. intros [q|x] I; [apply (t_own _ T), (t_bc _ T) in I; congruence|]. apply (w_reg _ _ W) in I. destruct I as (g & I). apply (parent_born _ _ _ R) in I. congruence. }
    unfold reg in RG. apply app_eq_nil in RG. destruct RG as [SL MP].
    eapply quiets_call; [cbn [step]; rewrite CB, BR; cbn [andb negb]; unfold call; rewrite AR; reflexivity|]. destruct (dead (cx s c)) eqn:D.
    + eapply quiets_step; [cbn; apply fupd_same|cbn; rewrite fupd_other by exact N; rewrite D; reflexivity|]. cbn [app]. destruct (dead (cx s d)) eqn:DD.
      * eapply quiets_step; [cbn; apply fupd_same|cbn; rewrite ?fupd_same; unfold dead in *; cbn; destruct (st (cx s d)); [reflexivity|discriminate]|].
        apply quiets_ret; [cbn; apply fupd_same|cbn; apply JN].
      * eapply quiets_step; [cbn; apply fupd_same|cbn; rewrite ?fupd_same; unfold dead in *; cbn; destruct (st (cx s d)); [discriminate|reflexivity]|].
        eapply quiets_step; [cbn; apply fupd_same|cbn; rewrite ?fupd_same; cbn; rewrite MP; reflexivity|].
        eapply quiets_step; [cbn; apply fupd_same|cbn; rewrite ?fupd_same; cbn; rewrite SL; reflexivity|].
        apply quiets_ret; [cbn; apply fupd_same|cbn; apply JN].
    + eapply quiets_step; [cbn; apply fupd_same|cbn; rewrite fupd_other by exact N; rewrite D; reflexivity|]. cbn [app].
      eapply quiets_step; [cbn; apply fupd_same|cbn; rewrite ?fupd_other by exact N; rewrite MU, D; reflexivity|].
      eapply quiets_step; [cbn; apply fupd_same|cbn [go]; reflexivity|].
      apply quiets_ret; [cbn; apply fupd_same|]. cbn. unfold register. destruct (_ <? 2)%nat; cbn; apply JN.
  - destruct (cborn (cx s d)) eqn:CB; [|exists 0%nat; cbn; rewrite CB; exact AR].
    eapply quiets_call; [cbn [step]; rewrite CB; unfold call; rewrite AR; reflexivity|]. destruct (par (cx s d)) as [p|] eqn:P.
    + eapply quiets_step; [cbn; apply fupd_same|cbn; rewrite P; reflexivity|]. cbn [app].
      set (s1 := set_stk _ _ _). assert (M1 : mu (cx s1 p) = false) by (cbn; unfold fupd; destruct (Nat.eqb_spec p d) as [->|]; apply MU).
      eapply quiets_step; [cbn; apply fupd_same|cbn [go]; rewrite M1; reflexivity|].
      apply quiets_ret; [cbn; apply fupd_same|]. cbn. unfold unregister. destruct (existsb _ _); cbn; apply JN.
    + eapply quiets_step; [cbn; apply fupd_same|cbn; rewrite P; reflexivity|]. apply quiets_ret; [cbn; apply fupd_same|cbn; apply JN].
Qed.
Print Assumptions C142_make_returns.

(** The hypotheses can be met: a context with a request, taken by a handler that has made two requests of its own and a
    child it is done with; nothing of it is answered. Cancel of the first context answers all three. *)
Definition deep : list ev :=
  [ERoot 0; ENew 1 0 5] ++ gos 4 1 ++ [EPend 5; EHandle 5 1; ENew 2 1 6] ++ gos 4 2 ++ [ENew 2 1 7] ++ gos 4 2 ++ [EChild 2 1 2] ++ gos 4 2 ++ [EDone 2 2] ++ gos 3 2.
Theorem C142_example : exists tr s, run init deep = (tr, s) /\ at_rest s /\ children_done tr /\ In (OChildRet 2 1 2) tr /\
  (forall r, delivered tr r = []) /\ In (ONewRet 1 0 5) tr /\ In (ONewRet 2 1 6) tr /\ In (ONewRet 2 1 7) tr /\
  exists n t s', run s (call_and_run 3 (ECancel 3 0 CxTimeout) n) = (t, s') /\ at_rest s' /\
  delivered t 5 = [RcCanceled] /\ delivered t 6 = [RcCanceled] /\ delivered t 7 = [RcCanceled] /\ Timeout s' 0 = true /\ Alive s' 1 = false /\ Timeout s' 1 = false.
Proof.
  eexists (fst (run init deep)), (snd (run init deep)). split; [apply surjective_pairing|].
  assert (T : fst (run init deep) = [ONew 1 0 5; ONewRet 1 0 5; OHandle 5 1; ONew 2 1 6; ONewRet 2 1 6; ONew 2 1 7; ONewRet 2 1 7; OChild 2 1 2; OChildRet 2 1 2; ODone 2]) by (vm_compute; reflexivity).
  rewrite T. split; [intro k; do 4 (destruct k as [|k]; [vm_compute; reflexivity|]); vm_compute; reflexivity|]. split.
  { intros k p d I. cbn in I. repeat match type of I with _ \/ _ => destruct I as [I|I] end; try discriminate; try contradiction. injection I as <- <- <-. split; [cbn; tauto|]. intros a b Q.
    repeat (destruct a as [|? a]; cbn [app] in Q; [discriminate|injection Q as <- Q]). cbn; tauto. }
  split; [cbn; tauto|]. split; [reflexivity|]. do 3 (split; [cbn; tauto|]).
  exists 60%nat, (fst (run (snd (run init deep)) (call_and_run 3 (ECancel 3 0 CxTimeout) 60))), (snd (run (snd (run init deep)) (call_and_run 3 (ECancel 3 0 CxTimeout) 60))).
  split; [apply surjective_pairing|]. split; [intro k; do 5 (destruct k as [|k]; [vm_compute; reflexivity|]); vm_compute; reflexivity|]. repeat split; vm_compute; reflexivity.
Qed.
Print Assumptions C142_example.
