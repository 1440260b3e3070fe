(** Theorems about Auto: C92 to C95. *)
From Coq Require Import List Bool Arith ZArith Lia.
Import ListNotations.
From Verif Require Import Base ConfModel AutoModel AutoSpec AutoProofs.
Open Scope nat_scope.

(** ** C92: one server per address *)
Lemma run_app es : forall s es', run s (es ++ es') = let '(o, s1) := run s es in let '(o', s2) := run s1 es' in (o ++ o', s2).
Proof.
  induction es as [|e es IH]; intros s es'; cbn [app run].
  - now destruct (run s es').
  - destruct (step s e) as [o1 s1]. rewrite IH. destruct (run s1 es) as [o2 s2]. destruct (run s2 es') as [o3 s3]. now rewrite app_assoc.
Qed.
(** a prefix of a trace that ends in the middle of nothing: what was said before an observation was said by an earlier state *)
Lemma at_obs es : forall t0 s0 o s t1 x t2, Inv t0 s0 -> run s0 es = (o, s) -> t0 ++ o = t1 ++ x :: t2 -> length t0 <= length t1 ->
  exists ta sa e oa sb oc, Inv ta sa /\ step sa e = (oa, sb) /\ In x oa /\ ta ++ oc = t1 /\ exists od, oa = oc ++ x :: od.
Proof.
  induction es as [|e es IH]; intros t0 s0 o s t1 x t2 I; cbn [run].
  - intros E. injection E as <- <-. intros E L. exfalso. rewrite app_nil_r in E. apply (f_equal (@length obs)) in E. rewrite app_length in E. cbn in E. lia.
  - destruct (step s0 e) as [o1 s1] eqn:E1. destruct (run s1 es) as [o2 s2] eqn:E2. intro E. injection E as <- <-. intros E L.
    destruct (le_lt_dec (length (t0 ++ o1)) (length t1)) as [G|G].
    + rewrite app_assoc in E. exact (IH (t0 ++ o1) s1 o2 s2 t1 x t2 (step_inv _ _ _ _ _ I E1) E2 E G).
    + assert (X : exists oc, t1 = t0 ++ oc).
      { exists (skipn (length t0) t1). rewrite <- (firstn_skipn (length t0) t1) at 1. f_equal.
        apply (f_equal (firstn (length t0))) in E. rewrite firstn_app, Nat.sub_diag, firstn_all in E. cbn in E. rewrite app_nil_r in E.
        rewrite firstn_app in E. replace (length t0 - length t1) with 0 in E by lia. cbn in E. rewrite app_nil_r in E. now symmetry. }
      destruct X as [oc ->]. rewrite <- app_assoc in E. apply app_inv_head in E. rewrite app_length in G, L. rewrite app_length in G.
      assert (Y : exists od, o1 = oc ++ x :: od).
      { clear -E G. revert o1 E G. induction oc as [|y oc IH]; intros [|z o1] E G; cbn in *; try lia; injection E as -> E.
        - now exists o1.
        - destruct (IH o1 E ltac:(lia)) as [od ->]. now exists od. }
      destruct Y as [od ->]. exists t0, s0, e, (oc ++ x :: od), s1, oc. split; [exact I|]. split; [exact E1|]. split; [apply in_or_app; right; now left|]. split; [reflexivity|]. now exists od.
Qed.
Lemma start_obs es t s t1 x t2 : start es = (t, s) -> t = t1 ++ x :: t2 ->
  exists ta sa e oa sb oc, Inv ta sa /\ step sa e = (oa, sb) /\ In x oa /\ ta ++ oc = t1 /\ exists od, oa = oc ++ x :: od.
Proof. intros E D. apply (at_obs es [] s_init t s t1 x t2 init_inv E D). cbn. lia. Qed.

Theorem C92_once_between_stops es t s t1 i a t2 j t3 : start es = (t, s) -> t = t1 ++ OStart i a :: t2 ++ OStart j a :: t3 ->
  exists k, In (OStopped k) t2.
Proof.
  intros E D. assert (D' : t = (t1 ++ OStart i a :: t2) ++ OStart j a :: t3) by (rewrite D, <- app_assoc; reflexivity).
  destruct (start_obs es t s _ _ _ E D') as (ta & sa & e & oa & sb & oc & I & S1 & HI & EO & od & EA).
  assert (Q : oc = [] /\ free sa = true /\ look a (servers sa) = None).
  { clear -S1 EA. subst oa. destruct e as [k b|k|k x|k|k x|k|x]; cbn [step] in S1; unfold step_go in S1;
      repeat match goal with E : context [match ?x with _ => _ end] |- _ => destruct x eqn:? end; injection S1 as A B; destruct oc as [|? [|? ?]]; try discriminate; injection A as A2 A3; subst; try discriminate.
    split; [reflexivity|]. split; [reflexivity|assumption]. }
  destruct Q as (-> & F & L). rewrite app_nil_r in EO. subst ta.
  destruct (iLast _ _ I t1 i a t2 eq_refl) as [X|[X|[k X]]]; [exact X| |].
  - exfalso. exact (look_none a sa i L X).
  - exfalso. apply (free_holds _ _ k I F). now rewrite X.
Qed.
Theorem C92_one_server es t s : start es = (t, s) -> (forall k, ~ In (OStop k) t) ->
  forall k a i k' i', In (OGet k a i) t -> In (OGet k' a i') t -> i = i'.
Proof.
  intros E N k a i k' i' A B. pose proof (start_inv _ _ _ E) as I. apply (iGet _ _ I) in A, B.
  assert (NS : forall x, ~ In (OStopped x) t) by (intros x X; apply (N x); apply (iIns _ _ I); now right).
  destruct (Nat.eq_dec i i') as [|D]; [assumption|]. exfalso. apply in_split in A. destruct A as (t1 & t2 & A).
  rewrite A in B. apply in_app_or in B. destruct B as [B|[B|B]]; [|congruence|].
  - apply in_split in B. destruct B as (u1 & u2 & ->). rewrite <- app_assoc in A. cbn in A.
    destruct (C92_once_between_stops es t s u1 i' a u2 i t2 E A) as [x X]. apply (NS x). rewrite A. apply in_or_app. right. right. apply in_or_app. now left.
  - apply in_split in B. destruct B as (u1 & u2 & ->). destruct (C92_once_between_stops es t s t1 i a u1 i' u2 E A) as [x X]. apply (NS x). rewrite A.
    apply in_or_app. right. right. apply in_or_app. now left.
Qed.
Theorem C92_right_server es t s k a i : start es = (t, s) -> In (OGet k a i) t -> In (OStart i a) t /\ forall b, In (OStart i b) t -> b = a.
Proof. intros E H. pose proof (start_inv _ _ _ E) as I. apply (iGet _ _ I) in H. split; [exact H|]. intros b B. exact (iOne _ _ I i b a B H). Qed.

(** ** C93: Get does not return a stopped server *)
Theorem C93_no_stop_under_way_partial es t s t1 k a i t2 : start es = (t, s) -> t = t1 ++ OGet k a i :: t2 ->
  (forall j, In (OStop j) t1 -> In (OStopped j) t1) -> ~ In (OHalt i) t1.
Proof.
  intros E D N H. destruct (start_obs es t s _ _ _ E D) as (ta & sa & e & oa & sb & oc & I & S1 & HI & EO & od & EA).
  assert (Q : oc = [] /\ (In (a, i) (ents sa) \/ pcs sa k = GStore a i)).
  { clear -S1 EA. subst oa. destruct e as [k0 b|k0|k0 x|k0|k0 x|k0|x]; cbn [step] in S1; unfold step_go in S1;
      repeat match goal with E : context [match ?x with _ => _ end] |- _ => destruct x eqn:? end; injection S1 as A B; destruct oc as [|? [|? ?]]; try discriminate; cbn in A; try discriminate A;
      injection A as -> -> -> _; (split; [reflexivity|]); try (left; now apply look_in). now right. }
  destruct Q as (-> & Q). rewrite app_nil_r in EO. subst ta. destruct Q as [Q|Q].
  - destruct (iHin _ _ I i a H Q) as (j & X & O). apply N in O. apply (iStd _ _ I) in O. rewrite O in X. cbn in X. now destruct X.
  - destruct (iSto _ _ I k a i Q) as (_ & A & _). contradiction.
Qed.
(** "x:1" *)
Definition addr1 : addr := [120; 58; 49]%Z.
Definition addr2 : addr := [120; 58; 50]%Z.
Definition get1 (k : nat) (a : addr) : list ev := [Get k a; Go k; Go k; Go k; Go k; Go k].
(** goroutine 1 stops the Auto; goroutine 2 calls Get later and is given the server that has already ended *)
Theorem C93_refuted : exists es t s t1 t2, start es = (t, s) /\ t = t1 ++ OGet 2 addr1 0 :: t2 /\
  (exists u1 u2, t1 = u1 ++ OHalt 0 :: u2 /\ In (OCall 2 addr1) u2) /\ sv s 0 = SvEnded /\ disciplined es.
Proof.
  exists (get1 0 addr1 ++ [Stop 1; Go 1; Next 1 0; Take 1; Ends 0; Get 2 addr1; Go 2; Go 2]).
  eexists. eexists. exists [OCall 0 addr1; OStart 0 addr1; OGet 0 addr1 0; OStop 1; OHalt 0; OCall 2 addr1]. exists [].
  split; [vm_compute; reflexivity|]. split; [reflexivity|]. split; [exists [OCall 0 addr1; OStart 0 addr1; OGet 0 addr1 0; OStop 1], [OCall 2 addr1]; split; [reflexivity|now left]|].
  split; [vm_compute; reflexivity|]. intros e H. repeat (destruct H as [<-|H]; [exact Logic.I|]). destruct H.
Qed.

(** ** C94: Get and Stop return *)
Theorem C94_all_return_partial es t s : start es = (t, s) -> disciplined es -> quiet s ->
  (forall k a, In (OCall k a) t -> exists i, In (OGet k a i) t) /\ (forall k, In (OStop k) t -> In (OStopped k) t).
Proof.
  intros E D Q. pose proof (start_inv _ _ _ E) as I. pose proof (start_live _ _ _ D E) as L. pose proof (quiet_ends t s I L Q) as QE. split.
  - intros k a H. destruct (iCall _ _ I k a H) as [X|[X|X]]; [|exact X|].
    + destruct (QE k) as [Y|Y]; rewrite Y in X; destruct X.
    + apply (iPan _ _ I) in X. destruct (QE k) as [Y|Y]; congruence.
  - intros k H. apply (iStop _ _ I) in H. destruct H as [X|[X|X]]; [|exact X|]; destruct (QE k) as [Y|Y]; rewrite Y in X; try discriminate X; destruct X.
Qed.
Theorem C94_bounded es t s : start es = (t, s) -> exists n, forall es', productive s es' -> length es' <= n.
Proof.
  intro E. destruct (run_below es s_init t s 0 (fun k _ => eq_refl) E) as [B HB]. exists (rank B (room B s) s). intros es' P. now apply productive_bound.
Qed.
Theorem C94_panic_keeps_the_lock es t s k : start es = (t, s) -> In (OPanic k) t ->
  forall es' t' s', run s es' = (t', s') -> (forall i a, ~ In (OStart i a) t') /\ (forall j, ~ In (OStopped j) t').
Proof. intros E H es' t' s'. pose proof (start_inv _ _ _ E) as I. apply (run_wedged es' t s k); [exact I|]. now apply (iPan _ _ I). Qed.
Theorem C94_empty_address_refuted : exists es t s, start es = (t, s) /\ In (OPanic 0) t /\ In (OStop 1) t /\ In (OCall 2 addr1) t /\
  forall es' t' s', run s es' = (t', s') -> ~ In (OStopped 1) t' /\ forall i, ~ In (OGet 2 addr1 i) t'.
Proof.
  set (es := [Get 0 []; Go 0; Go 0; Go 0; Go 0; Stop 1; Get 2 addr1]). exists es. destruct (start es) as [t s] eqn:E. exists t, s.
  assert (T : t = [OCall 0 []; OPanic 0; OStop 1; OCall 2 addr1]) by (vm_compute in E; now injection E).
  split; [reflexivity|]. split; [rewrite T; cbn; tauto|]. split; [rewrite T; cbn; tauto|]. split; [rewrite T; cbn; tauto|]. intros es' t' s' R.
  assert (P : In (OPanic 0) t) by (rewrite T; cbn; tauto).
  destruct (C94_panic_keeps_the_lock es t s 0 E P es' t' s' R) as [A B]. split; [apply B|]. intros i H.
  assert (E2 : start (es ++ es') = (t ++ t', s')) by (unfold start in *; rewrite run_app, E, R; reflexivity).
  destruct (C92_right_server _ _ _ 2 addr1 i E2 (in_or_app _ _ _ (or_intror H))) as [X _]. apply in_app_or in X. destruct X as [X|X]; [|now apply A in X].
  rewrite T in X. cbn in X. repeat (destruct X as [X|X]; [discriminate|]). exact X.
Qed.
(** goroutine 1 stops the server it was given; then goroutine 2 calls Stop of the Auto: it panics and keeps the lock *)
Theorem C94_stopped_server_refuted : exists es t s, start es = (t, s) /\ In (OGet 0 addr1 0) t /\ In (OUser 1 0) t /\ In (OStop 2) t /\ In (OPanic 2) t /\ In (OCall 3 addr2) t /\
  forall es' t' s', run s es' = (t', s') -> ~ In (OStopped 2) t' /\ forall i, ~ In (OGet 3 addr2 i) t'.
Proof.
  set (es := get1 0 addr1 ++ [Halt 1 0; Take 1; Ends 0; Stop 2; Go 2; Next 2 0; Get 3 addr2]). exists es. destruct (start es) as [t s] eqn:E. exists t, s.
  assert (T : t = [OCall 0 addr1; OStart 0 addr1; OGet 0 addr1 0; OUser 1 0; OStop 2; OPanic 2; OCall 3 addr2]) by (vm_compute in E; now injection E).
  split; [reflexivity|]. split; [rewrite T; cbn; tauto|]. split; [rewrite T; cbn; tauto|]. split; [rewrite T; cbn; tauto|]. split; [rewrite T; cbn; tauto|]. split; [rewrite T; cbn; tauto|]. intros es' t' s' R.
  assert (P : In (OPanic 2) t) by (rewrite T; cbn; tauto).
  destruct (C94_panic_keeps_the_lock es t s 2 E P es' t' s' R) as [A B]. split; [apply B|]. intros i H.
  assert (E2 : start (es ++ es') = (t ++ t', s')) by (unfold start in *; rewrite run_app, E, R; reflexivity).
  destruct (C92_right_server _ _ _ 3 addr2 i E2 (in_or_app _ _ _ (or_intror H))) as [X _]. apply in_app_or in X. destruct X as [X|X]; [|now apply A in X].
  rewrite T in X. cbn in X. repeat (destruct X as [X|X]; [discriminate|]). exact X.
Qed.

(** ** C95: the servers of an Auto *)
Theorem C95_configured c a u : server_for c a = Some u ->
  u_address u = a /\ u_read u = c_read c /\ u_write u = c_write c /\ u_rct u = c_rct c /\ u_timeout u = c_timeout c /\
  (c_network c <> [] -> u_network u = c_network c) /\ (c_name c <> [] -> u_name u = c_name c) /\ (1 <= c_conns c -> u_conns u = c_conns c)%Z /\ (0 < c_ping c -> u_ping u = c_ping c)%Z.
Proof.
  unfold server_for, NewServer, SetDefaults, at_address. cbn. destruct a as [|z a]; [discriminate|]. cbn. intro E. injection E as <-. cbn.
  repeat split; trivial.
  - destruct (c_network c); [congruence|reflexivity].
  - destruct (c_name c); [congruence|reflexivity].
  - intro H. destruct (Z.leb_spec (c_conns c) 0); [lia|reflexivity].
  - intro H. destruct (Z.eqb_spec (c_ping c) 0); [lia|]. destruct (Z.ltb_spec 0 (c_ping c)); [reflexivity|lia].
Qed.
Theorem C95_names_differ_partial c a b u v : c_name c = [] -> server_for c a = Some u -> server_for c b = Some v -> u_name u = u_name v -> a = b.
Proof.
  intro N. destruct a as [|z a]; [discriminate|]. destruct b as [|y b]; [discriminate|].
  unfold server_for, NewServer, SetDefaults, at_address. cbn [empty c_address c_name c_network]. rewrite N. cbn [empty].
  intros E F. injection E as <-. injection F as <-. cbn [u_name]. 
  match goal with |- context [if ?x then s_tcp else s_unix] => generalize x end. intro p.
  match goal with |- context [if ?x || ?x' then s_tcp else s_unix] => generalize (x || x') | |- _ => idtac end.
  try (intro q). destruct (c_network c) as [|x n]; cbn [empty].
  - repeat match goal with |- context [if ?x then s_tcp else s_unix] => destruct x end; cbn; intro H; try discriminate; injection H; congruence.
  - intro H. apply (app_inv_head (x :: n)) in H. injection H. congruence.
Qed.
Theorem C95_names_refuted : exists c a b u v, a <> b /\ server_for c a = Some u /\ server_for c b = Some v /\ u_name u = u_name v.
Proof.
  exists (mkCfg [] [] [110]%Z 1 0 0 0 0 0 0)%Z, addr1, addr2. eexists. eexists. split; [discriminate|]. split; [vm_compute; reflexivity|]. split; vm_compute; reflexivity.
Qed.

(** ** Concrete cases *)
(** two goroutines ask for the same address at once: one server *)
Definition race : list ev := [Get 0 addr1; Get 1 addr1; Go 0; Go 1; Go 0; Go 1; Go 0; Go 1; Go 0; Go 1; Go 0; Go 1].
Example C92_ex : fst (start race) = [OCall 0 addr1; OCall 1 addr1; OStart 0 addr1; OGet 0 addr1 0; OGet 1 addr1 0].
Proof. vm_compute. reflexivity. Qed.
(** Stop, then another Get *)
Definition again : list ev := get1 0 addr1 ++ [Stop 1; Go 1; Next 1 0; Take 1; Go 1; Ends 0] ++ get1 2 addr1.
Example C93_ex : fst (start again) = [OCall 0 addr1; OStart 0 addr1; OGet 0 addr1 0; OStop 1; OHalt 0; OStopped 1; OCall 2 addr1; OStart 1 addr1; OGet 2 addr1 1].
Proof. vm_compute. reflexivity. Qed.
Example C94_ex : disciplined again /\ quiet (snd (start again)).
Proof.
  split; [intros e H; repeat (destruct H as [<-|H]; [exact Logic.I|]); destruct H|].
  assert (P : forall k, pcs (snd (start again)) k = PNew \/ pcs (snd (start again)) k = PEnd).
  { intro k. destruct k as [|[|[|k]]]; vm_compute; tauto. }
  intros e. destruct e as [k a|k|k i|k|k i|k|i]; intros []; cbn [step]; unfold step_go; destruct (P k) as [X|X]; rewrite X; reflexivity.
Qed.
Example C95_ex : exists u, server_for (mkCfg [] [] [] 3 0 7 0 0 0 0)%Z addr1 = Some u /\ (u_conns u = 3 /\ u_read u = 7)%Z.
Proof. eexists. split; [vm_compute; reflexivity|]. split; reflexivity. Qed.

Print Assumptions C92_once_between_stops.
Print Assumptions C92_one_server.
Print Assumptions C92_right_server.
Print Assumptions C93_no_stop_under_way_partial.
Print Assumptions C93_refuted.
Print Assumptions C94_all_return_partial.
Print Assumptions C94_bounded.
Print Assumptions C94_panic_keeps_the_lock.
Print Assumptions C94_empty_address_refuted.
Print Assumptions C94_stopped_server_refuted.
Print Assumptions C95_configured.
Print Assumptions C95_names_differ_partial.
Print Assumptions C95_names_refuted.
