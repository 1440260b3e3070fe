(** Theorems about making requests: C100 to C103. *)
From Coq Require Import List Bool Arith Lia Permutation Sorted.
Import ListNotations.
From Verif Require Import GenModel GenSpec GenProofs.
From Verif Require MultiModel MultiSpec MultiProps.

(** ** C100: no request is given out twice *)
Theorem C100_distinct_partial caps es t s : start caps es = (t, s) -> exclusive t -> NoDup (slots t).
Proof. intros E X. apply (aNd _ _ (xA _ _ (start_all _ _ _ _ E) X)). Qed.
(** ... and making one does not panic unless encoding the body does *)
Definition fails_well (t : list obs) : Prop := forall t1 k o t2, t = t1 ++ OFail k o :: t2 -> exists b, cur t1 k = Some (o, VEnc b true).
Lemma fails_app t u : (forall x, In x u -> match x with OFail _ _ => False | _ => True end) -> fails_well t -> fails_well (t ++ u).
Proof.
  induction u as [|x u IH] using rev_ind; intros U H; [now rewrite app_nil_r|]. rewrite app_assoc. intros t1 k o t2 E. apply snoc_split in E. destruct E as [(-> & -> & E)|(t3 & -> & E)].
  - exfalso. specialize (U x). rewrite <- E in U. apply U. apply in_snoc. now right.
  - apply (IH (fun y Y => U y (in_or_app _ _ _ (or_introl Y))) H t1 k o t3 E).
Qed.
Lemma step_fails caps t s e u s' : All t s -> exclusive t -> fails_well t -> step caps s e = (u, s') -> fails_well (t ++ u).
Proof.
  intros A X H E. assert (N : forall v, (u, s') = ([], v) -> fails_well (t ++ u)) by (intros v V; injection V as -> ->; now rewrite app_nil_r).
  destruct e as [o m|o n|o o'|k o v|o|k]; cbn [step] in E.
  - destruct (objs s o); injection E as <- <-; apply fails_app; trivial; cbn; intuition (subst; trivial).
  - destruct (objs s o); [injection E as <- <-|destruct (Get (S n) s); injection E as <- <-]; apply fails_app; trivial; cbn; intuition (subst; trivial).
  - unfold step_multi, need in E. apply fails_app; trivial. intros x Hx. destruct (objs s o) as [y|]; [|injection E as <- <-; destruct Hx]. destruct (objs s o'); [injection E as <- <-; destruct Hx|].
    destruct (knd y); try (injection E as <- <-; destruct Hx); destruct (ogen y); try destruct (Get 0 s); injection E as <- <-; cbn in Hx; intuition (subst; trivial).
  - destruct (pcs s k); try (injection E as <- <-; apply fails_app; trivial; intros x []). destruct (objs s o); injection E as <- <-; apply fails_app; trivial; cbn; intuition (subst; trivial).
  - unfold step_done in E. apply fails_app; trivial. intros x Hx. destruct (objs s o) as [y|]; [|injection E as <- <-; destruct Hx]. destruct (knd y); destruct (ogen y); try destruct (own y); injection E as <- <-; cbn in Hx; intuition (subst; trivial).
  - unfold step_go in E. destruct (pcs s k) as [|o v|o v g id|o v g id|o v g id a i|o v g id a i|o v g id a i|o v g id a i b] eqn:P; try (injection E as <- <-; apply fails_app; trivial; cbn; intuition (subst; trivial)).
    + apply fails_app; trivial. intros x Hx. unfold need in E. destruct (objs s o) as [y|]; [|injection E as <- <-; destruct Hx].
      destruct (knd y); cbn [ogen] in E; destruct (ogen y); try destruct (Get 0 _); injection E as <- <-; cbn in Hx; intuition (subst; trivial).
    + destruct (arr (gens s g)); injection E as <- <-; apply fails_app; trivial; cbn; tauto.
    + pose proof (xA _ _ A X) as B. destruct (arr (gens s g)) eqn:Ha; [|exfalso; now apply (aSlot _ _ B k o v g id P)]. destruct (Nat.leb_spec 32 (idx (gens s g))) as [L|L]; [pose proof (aIdx _ _ B g); lia|]. injection E as <- <-. apply fails_app; trivial. cbn. tauto.
    + destruct v as [b|b [|]]; injection E as <- <-; try (apply fails_app; trivial; cbn; tauto). intros t1 k1 o1 t2 E. apply snoc_split in E. destruct E as [(-> & -> & E)|(t3 & -> & E)]; [|now apply (H t1 k1 o1 t3)].
      injection E as -> ->. exists b. rewrite (cCur _ _ (xC _ _ A)), P. reflexivity.
Qed.
Theorem C100_no_panic_partial caps es t s : start caps es = (t, s) -> exclusive t -> forall t1 k o t2, t = t1 ++ OFail k o :: t2 -> exists b, cur t1 k = Some (o, VEnc b true).
Proof.
  intros E X. assert (Y : forall es t s u s', All t s -> run caps s es = (u, s') -> exclusive (t ++ u) -> fails_well t -> fails_well (t ++ u)).
  { clear. induction es as [|e es IH]; intros t s u s' A; cbn [run]; [intro E; injection E as <- <-; now rewrite app_nil_r|].
    destruct (step caps s e) as [o1 s1] eqn:E1. destruct (run caps s1 es) as [o2 s2] eqn:E2. intro E. injection E as <- <-. rewrite app_assoc. intros X H. eapply IH; [eapply all_step; eassumption|exact E2|exact X|].
    eapply step_fails; [exact A| |exact H|exact E1]. apply exclusive_app in X. now apply exclusive_app in X. }
  apply (Y es [] s_init t s all_init E X). intros t1 k o t2 H. now destruct t1.
Qed.
(** a context that is used after its Done, as another one is given its generator: both requests are the same *)
Definition std (c : nat) : nat := 128.
Definition request (k o : nat) (v : value) : list ev := [Call k o v; Go k; Go k; Go k; Go k; Go k; Go k; Go k].
Theorem C100_after_done_refuted : exists es t s a i, start std es = (t, s) /\ In (OReq 0 0 2 a i [1]) t /\ In (OReq 1 1 1 a i [2]) t.
Proof.
  exists ([New 0 false; New 1 false] ++ request 0 0 (VEnc [7] false) ++ [Done 0; Call 0 0 (VBody [1]); Call 1 1 (VBody [2]); Go 0; Go 1; Go 0; Go 1; Go 0; Go 1; Go 0; Go 1; Go 0; Go 1; Go 0; Go 1; Go 0; Go 1]).
  eexists. eexists. exists 0, 1. split; [vm_compute; reflexivity|]. split; vm_compute; tauto.
Qed.
(** a context that two goroutines use at once *)
Theorem C100_two_goroutines_refuted : exists es t s a i, start std es = (t, s) /\ In (OReq 0 0 1 a i [1]) t /\ In (OReq 1 0 2 a i [2]) t.
Proof.
  exists [New 0 false; Call 0 0 (VBody [1]); Call 1 0 (VBody [2]); Go 0; Go 1; Go 0; Go 1; Go 0; Go 1; Go 0; Go 1; Go 0; Go 1; Go 0; Go 1; Go 0; Go 1].
  eexists. eexists. exists 0, 0. split; [vm_compute; reflexivity|]. split; vm_compute; tauto.
Qed.

(** ** C101: the body of a request is the encoding of the value it was made from *)
Theorem C101_body_partial caps es t s : start caps es = (t, s) -> exclusive t -> no_failure t ->
  forall t1 k o id a i b t2, t = t1 ++ OReq k o id a i b :: t2 -> exists v, cur t1 k = Some (o, v) /\ b = bytes v.
Proof. intros E X F. apply (bTr _ _ (xB _ _ (start_all _ _ _ _ E) X F)). Qed.
(** a value of type Body is taken as it is, whatever else happens *)
Definition plain_body (t : list obs) (s : st) : Prop :=
  (forall k o d g id a i b, pcs s k = QRet o (VBody d) g id a i b -> b = d) /\ (forall k o d g id a i, pcs s k <> QTake o (VBody d) g id a i) /\
  forall t1 k o id a i b t2 d, t = t1 ++ OReq k o id a i b :: t2 -> cur t1 k = Some (o, VBody d) -> b = d.
Lemma plain_step caps t s e u s' : All t s -> plain_body t s -> step caps s e = (u, s') -> plain_body (t ++ u) s'.
Proof.
  intros A (H1 & H2 & H3) E.
  assert (TR : no_req u -> forall t1 k o id a i b t2 d, t ++ u = t1 ++ OReq k o id a i b :: t2 -> cur t1 k = Some (o, VBody d) -> b = d).
  { clear - H3. induction u as [|x u IH] using rev_ind; intros U t1 k o id a i b t2 d E; [rewrite app_nil_r in E; now apply (H3 t1 k o id a i b t2)|].
    rewrite app_assoc in E. apply snoc_split in E. destruct E as [(-> & -> & E)|(t3 & -> & E)].
    - exfalso. specialize (U x). rewrite <- E in U. apply U. apply in_snoc. now right.
    - apply (IH (fun y Y => U y (in_or_app _ _ _ (or_introl Y))) t1 k o id a i b t3 d E). }
  assert (SAME : pcs s' = pcs s -> no_req u -> plain_body (t ++ u) s') by (intros P U; split; [rewrite P; exact H1|split; [rewrite P; exact H2|now apply TR]]).
  assert (MOVE : forall k p, pcs s' = upd (pcs s) k p -> no_req u -> (forall o d g id a i b, p = QRet o (VBody d) g id a i b -> b = d) -> (forall o d g id a i, p <> QTake o (VBody d) g id a i) -> plain_body (t ++ u) s').
  { intros k p P U N1 N2. split; [|split; [|now apply TR]]; rewrite P.
    - intros j o d g id a i b H. other j k N; [now apply (N1 o d g id a i)|now apply (H1 j o d g id a i)].
    - intros j o d g id a i H. other j k N; [now apply N2 in H|now apply H2 in H]. }
  assert (GP : forall c z g z1, Get c z = (g, z1) -> pcs z1 = pcs z) by (intros c z g z1; unfold Get; destruct (cache z c); intro Q; injection Q as <- <-; reflexivity).
  assert (NP : forall o x z u0 g x2 z2, need o x z = (u0, (g, x2, z2)) -> pcs z2 = pcs z /\ no_req u0).
  { intros o x z u0 g x2 z2 Q. unfold need in Q. destruct (ogen x); [injection Q as <- <- <- <-; split; [reflexivity|intros y []]|]. destruct (Get 0 z) as [g1 z1] eqn:Eg. injection Q as <- <- <- <-. split; [cbn; now apply (GP 0 z g1)|intros y [<-|[]]; exact Logic.I]. }
  destruct e as [o m|o n|o o'|k o v|o|k]; cbn [step] in E.
  - destruct (objs s o); injection E as <- <-; apply SAME; trivial; intros y Y; cbn in Y; intuition (subst; trivial).
  - destruct (objs s o); [injection E as <- <-; apply SAME; trivial; intros y []|]. destruct (Get (S n) s) as [g s1] eqn:Eg. injection E as <- <-. apply SAME; [cbn; now apply (GP (S n) s g)|]. intros y Y; cbn in Y; intuition (subst; trivial).
  - unfold step_multi in E. destruct (objs s o) as [y|]; [|injection E as <- <-; apply SAME; trivial; intros z []]. destruct (objs s o'); [injection E as <- <-; apply SAME; trivial; intros z []|].
    destruct (need o y s) as [u0 [[g x2] s2]] eqn:Nd. destruct (NP _ _ _ _ _ _ _ Nd) as [P U].
    destruct (knd y); injection E as <- <-; (apply SAME; [trivial|]); intros z Z; try (destruct Z); try (apply in_snoc in Z; destruct Z as [Z| ->]; [now apply U|exact Logic.I]).
  - destruct (pcs s k) eqn:P; try (injection E as <- <-; apply SAME; trivial; intros y []). destruct (objs s o); [|injection E as <- <-; apply SAME; trivial; intros y []]. injection E as <- <-. apply MOVE with (k := k) (p := QGen o v); trivial; try discriminate. intros y [<-|[]]; exact Logic.I.
  - unfold step_done in E. assert (RP : forall g z, pcs (Release caps g z) = pcs z) by (intros g z; unfold Release; destruct (rel _); trivial; now destruct (_ <? _)).
    destruct (objs s o) as [y|]; [|injection E as <- <-; apply SAME; trivial; intros z []]. destruct (knd y); destruct (ogen y); try destruct (own y); injection E as <- <-; (apply SAME; [now rewrite ?RP|intros z [<-|[]]; exact Logic.I]).
  - unfold step_go in E. destruct (pcs s k) as [|o v|o v g id|o v g id|o v g id a i|o v g id a i|o v g id a i|o v g id a i b] eqn:P.
    + injection E as <- <-. apply SAME; trivial. intros y [].
    + destruct (objs s o) as [y|]; [|injection E as <- <-; apply SAME; trivial; intros z []].
      destruct (knd y); match type of E with context [need ?a ?b ?c] => destruct (need a b c) as [u0 [[g x2] s2]] eqn:Nd end; destruct (NP _ _ _ _ _ _ _ Nd) as [Q U]; injection E as <- <-; (apply MOVE with (k := k) (p := QAlloc o v g (cnt x2)); trivial; try discriminate; cbn; now rewrite Q).
    + destruct (arr (gens s g)); injection E as <- <-; (apply MOVE with (k := k) (p := QSlot o v g id); trivial; try discriminate; intros z []).
    + destruct (arr (gens s g)); [destruct (32 <=? _)|]; injection E as <- <-; [apply MOVE with (k := k) (p := PIdle)|apply MOVE with (k := k) (p := QInc o v g id n (idx (gens s g)))|apply MOVE with (k := k) (p := PIdle)]; trivial; try discriminate; intros z Z; cbn in Z; intuition (subst; trivial).
    + injection E as <- <-. apply MOVE with (k := k) (p := QWrite o v g id a i); trivial; try discriminate. intros z [].
    + destruct v as [b|b [|]]; injection E as <- <-; [apply MOVE with (k := k) (p := QRet o (VBody b) g id a i b)|apply MOVE with (k := k) (p := PIdle)|apply MOVE with (k := k) (p := QTake o (VEnc b false) g id a i)]; trivial; try discriminate; try congruence; intros z Z; cbn in Z; intuition (subst; trivial).
    + injection E as <- <-. apply MOVE with (k := k) (p := QRet o v g id a i (pend (gens s g))); trivial; try discriminate; [intros z []|]. intros o1 d g1 id1 a1 i1 b1 Q. injection Q as -> -> -> -> -> -> <-. now apply H2 in P.
    + fold (bump s o) in E. injection E as <- <-. destruct (bump_same s o) as (_ & _ & _ & _ & E5). split; [|split]; cbn; rewrite ?E5.
      * intros j o1 d g1 id1 a1 i1 b1 H. other j k N; [discriminate|now apply (H1 j o1 d g1 id1 a1 i1)].
      * intros j o1 d g1 id1 a1 i1 H. other j k N; [discriminate|now apply H2 in H].
      * intros t1 k1 o1 id1 a1 i1 b1 t2 d E. apply snoc_split in E. destruct E as [(-> & -> & E)|(t3 & -> & E)]; [|now apply (H3 t1 k1 o1 id1 a1 i1 b1 t3)].
        injection E as -> -> -> -> -> ->. rewrite (cCur _ _ (xC _ _ A)), P. intro Q. injection Q as ->. now apply (H1 k o d g id a i).
Qed.
Theorem C101_ready_bodies caps es t s : start caps es = (t, s) -> forall t1 k o id a i b t2 d, t = t1 ++ OReq k o id a i b :: t2 -> cur t1 k = Some (o, VBody d) -> b = d.
Proof.
  intro E. assert (Y : forall es t s u s', All t s -> run caps s es = (u, s') -> plain_body t s -> plain_body (t ++ u) s').
  { clear. induction es as [|e es IH]; intros t s u s' A; cbn [run]; [intro E; injection E as <- <-; now rewrite app_nil_r|].
    destruct (step caps s e) as [o1 s1] eqn:E1. destruct (run caps s1 es) as [o2 s2] eqn:E2. intro E. injection E as <- <-. rewrite app_assoc. intro H. eapply IH; [eapply all_step; eassumption|exact E2|].
    eapply plain_step; eassumption. }
  apply (Y es [] s_init t s all_init E). split; [discriminate|]. split; [discriminate|]. intros t1 k o id a i b t2 d H. now destruct t1.
Qed.
(** encoding panics in one handler of a service: a later request of another handler begins with the bytes left behind *)
Theorem C101_after_panic_refuted : exists es t s, start std es = (t, s) /\ exclusive t /\
  t = [ONew 0 (KServ 3); OGot 0 0; OCall 0 0 (VEnc [7; 8] true); OFail 0 0; ODone 0; ONew 1 (KServ 3); OGot 1 0; OCall 1 1 (VEnc [9] false); OReq 1 1 1 0 1 [7; 8; 9]].
Proof.
  exists ([Serve 0 3] ++ request 0 0 (VEnc [7; 8] true) ++ [Done 0; Serve 1 3] ++ request 1 1 (VEnc [9] false)). eexists. eexists. split; [vm_compute; reflexivity|]. split; [|reflexivity]. apply exclusiveb_ok. vm_compute. reflexivity.
Qed.

(** ** C102: generators *)
(** a generator is given to an object only when every object that had it before is done: two Releases do no harm *)
Theorem C102_given_back caps es t s : start caps es = (t, s) -> forall t1 o g t2, t = t1 ++ OGot o g :: t2 -> forall r, In (OGot r g) t1 -> In (ODone r) t1.
Proof. intro E. apply (gHand _ _ (xG _ _ (start_all _ _ _ _ E))). Qed.
(** ... and at most twice *)
Theorem C102_at_most_twice caps es t s g : start caps es = (t, s) -> length (given g t) <= 2.
Proof. intro E. apply (gTwo _ _ (xG _ _ (start_all _ _ _ _ E))). Qed.

(** ** C103: Ids *)
(** a MultiRequest numbers its requests from 0 in the order of the calls *)
Definition is_multi (t : list obs) (o : nat) : Prop := In (ONew o KMul) t \/ exists c, In (OMulti c o) t.
Lemma multi_kind caps es t s : start caps es = (t, s) -> forall o, is_multi t o -> exists x, objs s o = Some x /\ ~ is_ctx (knd x).
Proof.
  intro E. assert (K : forall es s0 u s1, run caps s0 es = (u, s1) -> forall o x, objs s0 o = Some x -> exists y, objs s1 o = Some y /\ knd y = knd x).
  { clear. assert (ST : forall s e u s', step caps s e = (u, s') -> forall o x, objs s o = Some x -> exists y, objs s' o = Some y /\ knd y = knd x).
    { assert (GP : forall c z g z1, Get c z = (g, z1) -> objs z1 = objs z) by (intros c z g z1; apply get_objs).
      assert (RP : forall g z, objs (Release caps g z) = objs z) by (intros g z; unfold Release; destruct (rel _); trivial; now destruct (_ <? _)).
      assert (NP : forall o x z u0 g x2 z2, objs z o = Some x -> need o x z = (u0, (g, x2, z2)) -> forall p y, objs z p = Some y -> exists y', objs z2 p = Some y' /\ knd y' = knd y).
      { intros o x z u0 g x2 z2 O Q p y Y. unfold need in Q. destruct (ogen x); [injection Q as <- <- <- <-; now exists y|]. destruct (Get 0 z) as [g1 z1] eqn:Eg. injection Q as <- <- <- <-. cbn. rewrite (GP _ _ _ _ Eg). other p o N; [|now exists y]. eexists. split; [reflexivity|]. cbn. congruence. }
      intros s e u s' E p y Y. assert (SAME : objs s' = objs s -> exists y', objs s' p = Some y' /\ knd y' = knd y) by (intros ->; now exists y).
      destruct e as [o m|o n|o o'|k o v|o|k]; cbn [step] in E.
      - destruct (objs s o) eqn:O; injection E as <- <-; [now apply SAME|]. cbn. exists y. rewrite upd_other by congruence. now split.
      - destruct (objs s o) eqn:O; [injection E as <- <-; now apply SAME|]. destruct (Get (S n) s) as [g s1] eqn:Eg. injection E as <- <-. cbn. rewrite (GP _ _ _ _ Eg). exists y. rewrite upd_other by congruence. now split.
      - unfold step_multi in E. destruct (objs s o) as [x|] eqn:O; [|injection E as <- <-; now apply SAME]. destruct (objs s o') eqn:O'; [injection E as <- <-; now apply SAME|].
        destruct (need o x s) as [u0 [[g x2] s2]] eqn:Nd. destruct (NP _ _ _ _ _ _ _ O Nd p y Y) as (y' & Y1 & Y2).
        destruct (knd x); injection E as <- <-; try (now apply SAME); cbn; exists y'; (rewrite upd_other by congruence); now split.
      - destruct (pcs s k); try (injection E as <- <-; now apply SAME). destruct (objs s o); injection E as <- <-; now apply SAME.
      - unfold step_done in E. destruct (objs s o) as [x|] eqn:O; [|injection E as <- <-; now apply SAME]. destruct (knd x) eqn:Kx; destruct (ogen x); try destruct (own x); injection E as <- <-; try (now apply SAME); try (apply SAME; apply RP).
        rewrite RP. cbn. other p o N; [|now exists y]. eexists. split; [reflexivity|]. cbn. congruence.
      - unfold step_go in E. destruct (pcs s k) as [|o v|o v g id|o v g id|o v g id a i|o v g id a i|o v g id a i|o v g id a i b] eqn:P; try (injection E as <- <-; now apply SAME).
        + destruct (objs s o) as [x|] eqn:O; [|injection E as <- <-; now apply SAME].
          destruct (knd x) eqn:Kx; match type of E with context [need ?a ?b ?c] => destruct (need a b c) as [u0 [[g x2] s2]] eqn:Nd end; injection E as <- <-.
          all: try (exact (NP _ _ _ _ _ _ _ O Nd p y Y)).
          all: (match type of Nd with need _ ?b ?c = _ => assert (NQ : forall y1, objs c p = Some y1 -> exists y', objs s2 p = Some y' /\ knd y' = knd y1) by (intro y1; eapply (NP o b c); [apply upd_same|exact Nd]) end; cbn in NQ; unfold upd in NQ; cbn; destruct (Nat.eqb_spec p o) as [->|N]; [assert (y = x) by congruence; subst y; rewrite Kx; exact (NQ _ eq_refl)|exact (NQ y Y)]).
        + destruct (arr (gens s g)); injection E as <- <-; now apply SAME.
        + destruct (arr (gens s g)); [destruct (32 <=? _)|]; injection E as <- <-; now apply SAME.
        + destruct v as [b|b [|]]; injection E as <- <-; now apply SAME.
        + fold (bump s o) in E. injection E as <- <-. cbn. destruct (mObj _ _ (bump_calm s o) p y Y) as (y' & Y1 & Y2 & _). now exists y'. }
    induction es as [|e es IH]; intros s0 u s1; cbn [run]; [intro E; injection E as <- <-; intros o x H; now exists x|].
    destruct (step caps s0 e) as [u1 s2] eqn:E1. destruct (run caps s2 es) as [u2 s3] eqn:E2. intro E. injection E as <- <-. intros o x H. destruct (ST _ _ _ _ E1 o x H) as (y & Y1 & Y2). destruct (IH _ _ _ E2 o y Y1) as (z & Z1 & Z2). exists z. split; [exact Z1|congruence]. }
  assert (ST : forall s e u s' o, step caps s e = (u, s') -> (In (ONew o KMul) u \/ exists c, In (OMulti c o) u) -> exists x, objs s' o = Some x /\ ~ is_ctx (knd x)).
  { clear. intros s e u s' o E H. destruct e as [p m|p n|p p'|k p v|p|k]; cbn [step] in E.
    - destruct (objs s p); injection E as <- <-; [destruct H as [[]|[c []]]|]. destruct H as [[H|[]]|[c [H|[]]]]; [|discriminate]. injection H as -> H. cbn. rewrite upd_same. eexists. split; [reflexivity|]. cbn. now rewrite H.
    - destruct (objs s p); [injection E as <- <-; destruct H as [[]|[c []]]|]. destruct (Get (S n) s). injection E as <- <-. destruct H as [[H|[H|[]]]|[c [H|[H|[]]]]]; discriminate.
    - unfold step_multi in E. destruct (objs s p) as [x|]; [|injection E as <- <-; destruct H as [[]|[c []]]]. destruct (objs s p'); [injection E as <- <-; destruct H as [[]|[c []]]|].
      assert (U : forall u0 g x2 s2, need p x s = (u0, (g, x2, s2)) -> forall y, In y u0 -> exists g', y = OGot p g') by (intros u0 g x2 s2 Q y Y; unfold need in Q; destruct (ogen x); [injection Q as <- <- <- <-; destruct Y|]; destruct (Get 0 s); injection Q as <- <- <- <-; destruct Y as [<-|[]]; eexists; reflexivity).
      destruct (need p x s) as [u0 [[g x2] s2]]. specialize (U _ _ _ _ eq_refl).
      assert (W : (u, s') = (u0 ++ [OMulti p p'], w_obj s2 p' (mkObj (KSub p) (Some g) false 0)) -> exists x0, objs s' o = Some x0 /\ ~ is_ctx (knd x0)).
      { intro Q. injection Q as -> ->. assert (o = p').
        { destruct H as [H|[c H]]; apply in_snoc in H; destruct H as [H|H]; try (apply U in H; destruct H; discriminate); try discriminate. now injection H. }
        subst o. cbn. rewrite upd_same. eexists. split; [reflexivity|]. intros []. }
      destruct (knd x); try (injection E as <- <-; destruct H as [[]|[c []]]); apply W; now rewrite <- E.
    - destruct (pcs s k); try (injection E as <- <-; destruct H as [[]|[c []]]). destruct (objs s p); injection E as <- <-; [destruct H as [[H|[]]|[c [H|[]]]]; discriminate|destruct H as [[]|[c []]]].
    - unfold step_done in E. destruct (objs s p) as [x|]; [|injection E as <- <-; destruct H as [[]|[c []]]].
      assert (u = [ODone p]) by (destruct (knd x); destruct (ogen x); try destruct (own x); now injection E). subst u. destruct H as [[H|[]]|[c [H|[]]]]; discriminate.
    - exfalso. assert (U : forall y, In y u -> match y with ONew _ _ | OMulti _ _ => False | _ => True end).
      { intros y Y. unfold step_go, need in E. destruct (pcs s k) as [|p v|p v g id|p v g id|p v g id a i|p v g id a i|p v g id a i|p v g id a i b]; try (injection E as <- <-; cbn in Y; intuition (subst; trivial)).
        - destruct (objs s p) as [x|]; [|injection E as <- <-; destruct Y]. destruct (knd x); cbn [ogen] in E; destruct (ogen x); try destruct (Get 0 _); injection E as <- <-; cbn in Y; intuition (subst; trivial).
        - destruct (arr (gens s g)); injection E as <- <-; destruct Y.
        - destruct (arr (gens s g)); [destruct (32 <=? _)|]; injection E as <- <-; cbn in Y; intuition (subst; trivial).
        - destruct v as [b|b [|]]; injection E as <- <-; cbn in Y; intuition (subst; trivial). }
      destruct H as [H|[c H]]; now apply U in H. }
  assert (Y : forall es s0 u s1 o, run caps s0 es = (u, s1) -> (In (ONew o KMul) u \/ exists c, In (OMulti c o) u) -> exists x, objs s1 o = Some x /\ ~ is_ctx (knd x)).
  { induction es0 as [|e es0 IH]; intros s0 u s1 o; cbn [run]; [intro Q; injection Q as <- <-; intros [[]|[c []]]|].
    destruct (step caps s0 e) as [u1 s2] eqn:E1. destruct (run caps s2 es0) as [u2 s3] eqn:E2. intro Q. injection Q as <- <-. intro H.
    assert (H' : (In (ONew o KMul) u1 \/ exists c, In (OMulti c o) u1) \/ (In (ONew o KMul) u2 \/ exists c, In (OMulti c o) u2)).
    { destruct H as [H|[c H]]; apply in_app_or in H; destruct H as [H|H]; [left; now left|right; now left|left; right; now exists c|right; right; now exists c]. }
    destruct H' as [H'|H']; [|now apply (IH _ _ _ _ E2)]. destruct (ST _ _ _ _ _ E1 H') as (x & X1 & X2). destruct (K _ _ _ _ E2 o x X1) as (y & Y1 & Y2). exists y. split; [exact Y1|congruence]. }
  intros o H. apply (Y es s_init t s o E H).
Qed.
Theorem C103_multi_ids caps es t s o : start caps es = (t, s) -> exclusive t -> is_multi t o -> ids o t = seq 0 (length (ids o t)).
Proof.
  intros E X H. destruct (multi_kind _ _ _ _ E o H) as (x & X1 & X2). destruct (iMul _ _ (xI _ _ (start_all _ _ _ _ E) X) o x X1 X2) as [Y _]. rewrite Y at 1. now rewrite Y, seq_length.
Qed.
(** a context gives its requests increasing Ids *)
Theorem C103_context_ids caps es t s o : start caps es = (t, s) -> exclusive t -> StronglySorted lt (ids o t).
Proof.
  intros E X. pose proof (xI _ _ (start_all _ _ _ _ E) X) as I.
  assert (N : forall l, increasing l -> StronglySorted lt l).
  { intros l H. induction H as [|l n H IH L]; [constructor|]. clear H. induction l as [|m l IHl]; cbn; [repeat constructor|]. inversion IH as [|? ? A B]. subst. constructor; [apply IHl; [intros q Q; apply L; now right|exact A]|].
    rewrite Forall_forall in *. intros q Q. apply in_snoc in Q. destruct Q as [Q| ->]; [now apply B|apply L; now left]. }
  destruct (objs s o) as [x|] eqn:O; [|rewrite (iNone _ _ I o O); constructor]. assert (D : is_ctx (knd x) \/ ~ is_ctx (knd x)) by (destruct (knd x); cbn; tauto). destruct D as [D|D].
  - apply N. now apply (iCtx _ _ I o x O).
  - destruct (iMul _ _ I o x O D) as [-> _]. generalize 0 as n, (cnt x) as m. intros n m. revert n. induction m as [|m IH]; intro n; cbn; constructor; [apply IH|]. rewrite Forall_forall. intros q Q. apply in_seq in Q. lia.
Qed.
(** wait_group.go:43-46 with sort.Sort: a permutation in which no element is Less than an earlier one *)
Definition Sort (l l' : list nat) : Prop := Permutation l l' /\ forall l1 x l2 y l3, l' = l1 ++ x :: l2 ++ y :: l3 -> ~ y < x.
(** the sorted results are the responses in the order of the calls of Request *)
Theorem C103_sorted_results es t so l l' : MultiModel.run MultiModel.m_init es = (t, so) -> In (MultiModel.OResult l) t -> Sort l l' -> l' = MultiSpec.issued t.
Proof.
  intros E H [P S]. destruct (MultiProps.C50_one_response_per_request es t so l E H) as (P1 & P2 & _). rewrite P2 in *. assert (Q : Permutation l' (seq 0 (length l))) by (now rewrite <- P). clear P1 P2 P E H t so es. revert Q. generalize (length l) as n. clear l. intro n.
  (* both lists are sorted *)
  assert (U : forall a b, (forall l1 x l2 y l3, a = l1 ++ x :: l2 ++ y :: l3 -> ~ y < x) -> (forall l1 x l2 y l3, b = l1 ++ x :: l2 ++ y :: l3 -> ~ y < x) -> Permutation a b -> a = b).
  { clear. induction a as [|x a IH]; intros b A B Q; [now apply Permutation_nil in Q|]. destruct b as [|y b]; [symmetry in Q; now apply Permutation_nil in Q|].
    assert (x = y).
    { assert (Hx : In x (y :: b)) by (apply (Permutation_in x Q); now left). assert (Hy : In y (x :: a)) by (symmetry in Q; apply (Permutation_in y Q); now left). destruct Hx as [Hx|Hx]; [congruence|]. destruct Hy as [Hy|Hy]; [congruence|].
      apply in_split in Hx. destruct Hx as (b1 & b2 & ->). apply in_split in Hy. destruct Hy as (a1 & a2 & ->). specialize (A [] x a1 y a2 eq_refl). specialize (B [] y b1 x b2 eq_refl). lia. }
    subst y. f_equal. apply IH.
    - intros l1 u l2 v l3 Z. apply (A (x :: l1) u l2 v l3). now rewrite Z.
    - intros l1 u l2 v l3 Z. apply (B (x :: l1) u l2 v l3). now rewrite Z.
    - now apply Permutation_cons_inv in Q. }
  intro Q. apply U; trivial. clear. generalize 0 as k. induction n as [|n IH]; intros k l1 x l2 y l3 Z; [now destruct l1|]. cbn in Z. destruct l1 as [|z l1].
  - injection Z as <- Z. assert (In y (seq (S k) n)) by (rewrite Z; apply in_or_app; right; now left). apply in_seq in H. lia.
  - injection Z as <- Z. now apply (IH (S k) l1 x l2 y l3).
Qed.

(** ** A concrete case *)
(** two contexts, a MultiRequest of the first, a handler, a generator used twice *)
Definition sample : list ev :=
  [New 0 false; New 1 true] ++ request 0 0 (VEnc [1] false) ++ [Multi 0 2] ++ request 0 2 (VEnc [2] false) ++ request 1 1 (VEnc [3] false) ++ request 0 2 (VBody [4]) ++ request 0 0 (VEnc [5] false) ++
  [Done 0; New 3 false] ++ request 1 3 (VEnc [6] false) ++ [Serve 4 0] ++ request 2 4 (VEnc [7] false) ++ [Done 4; Done 0; Done 3; New 5 false] ++ request 0 5 (VEnc [8] false).
Example C100_ex : exclusive (fst (start std sample)) /\ no_failure (fst (start std sample)) /\
  slots (fst (start std sample)) = [(0, 0); (0, 1); (1, 0); (0, 2); (0, 3); (0, 4); (2, 0); (3, 0)] /\ given 0 (fst (start std sample)) = [0; 3] /\ given 3 (fst (start std sample)) = [5].
Proof.
  split; [apply exclusiveb_ok; vm_compute; reflexivity|]. split; [|vm_compute; now repeat split].
  assert (F : Forall (fun x => match x with OCall _ _ (VEnc _ true) => False | _ => True end) (fst (start std sample))) by (vm_compute; repeat constructor).
  rewrite Forall_forall in F. intros k o b H. exact (F _ H).
Qed.
Example C103_ex : is_multi (fst (start std sample)) 2 /\ ids 2 (fst (start std sample)) = [0; 1] /\ ids 0 (fst (start std sample)) = [1; 2].
Proof. split; [right; exists 0; vm_compute; tauto|]. vm_compute. now split. Qed.
Example C103_ex2 : exists l, In (MultiModel.OResult l) (fst (MultiModel.run MultiModel.m_init MultiProps.ex50)) /\ l = [2; 0; 1] /\ Sort l [0; 1; 2].
Proof.
  eexists. split; [vm_compute; tauto|]. split; [reflexivity|]. split; [apply perm_trans with [0; 2; 1]; [apply perm_swap|apply perm_skip, perm_swap]|].
  intros l1 x l2 y l3 E. assert (L : StronglySorted lt [0; 1; 2]) by (repeat constructor).
  rewrite E in L. clear E. induction l1 as [|z l1 IH]; [|inversion L; now apply IH]. cbn in L. inversion L as [|? ? _ F]. subst. rewrite Forall_forall in F.
  assert (x < y) by (apply F; apply in_or_app; right; now left). lia.
Qed.

Print Assumptions C100_distinct_partial.
Print Assumptions C100_no_panic_partial.
Print Assumptions C100_after_done_refuted.
Print Assumptions C100_two_goroutines_refuted.
Print Assumptions C101_body_partial.
Print Assumptions C101_ready_bodies.
Print Assumptions C101_after_panic_refuted.
Print Assumptions C102_given_back.
Print Assumptions C102_at_most_twice.
Print Assumptions C103_multi_ids.
Print Assumptions C103_context_ids.
Print Assumptions C103_sorted_results.
