(** Invariants of GenModel.v. *)
From Coq Require Import List Bool Arith Lia.
Import ListNotations.
From Verif Require Import GenModel GenSpec.

Lemma upd_same {A} (f : nat -> A) k v : upd f k v k = v.
Proof. unfold upd. now rewrite Nat.eqb_refl. Qed.
Lemma upd_other {A} (f : nat -> A) k v i : i <> k -> upd f k v i = f i.
Proof. unfold upd. intro N. apply Nat.eqb_neq in N. now rewrite N. Qed.
Ltac other i k N := destruct (Nat.eq_dec i k) as [->|N]; [rewrite ?upd_same in *|rewrite ?(upd_other _ k _ i) in * by exact N].
Lemma in_snoc {A} (l : list A) a b : In a (l ++ [b]) <-> In a l \/ a = b.
Proof. rewrite in_app_iff. cbn. intuition. Qed.

Lemma nodup_snoc {A} (l : list A) a : NoDup l -> ~ In a l -> NoDup (l ++ [a]).
Proof.
  induction l as [|b l IH]; cbn; intros H N; [constructor; [intros []|constructor]|]. inversion H as [|? ? H1 H2]. subst. constructor.
  - rewrite in_snoc. intros [X|X]; [contradiction|]. subst. apply N. now left.
  - apply IH; [exact H2|]. intro X. apply N. now right.
Qed.

(** ** The trace *)
Lemma given_app g t u : given g (t ++ u) = given g t ++ given g u.
Proof. unfold given. apply flat_map_app. Qed.
Lemma given_in g t o : In o (given g t) <-> In (OGot o g) t.
Proof.
  unfold given. rewrite in_flat_map. split.
  - intros (x & I & J). destruct x; try contradiction. destruct (Nat.eqb_spec g0 g) as [->|]; [|contradiction]. now destruct J as [->|[]].
  - intro I. exists (OGot o g). split; [exact I|]. rewrite Nat.eqb_refl. now left.
Qed.
Lemma cur_snoc t x k : cur (t ++ [x]) k = match x with
  | OCall k' o v => if k' =? k then Some (o, v) else cur t k
  | OReq k' _ _ _ _ _ | OFail k' _ => if k' =? k then None else cur t k
  | _ => cur t k end.
Proof. unfold cur. rewrite fold_left_app. reflexivity. Qed.
Lemma root_snoc t x o : root (t ++ [x]) o = match x with OMulti c o' => if o' =? o then c else root t o | _ => root t o end.
Proof. unfold root. rewrite fold_left_app. reflexivity. Qed.
(** when a generator is given out, every object that had it is done *)
Definition handed (t : list obs) : Prop := forall t1 o g t2, t = t1 ++ OGot o g :: t2 -> forall r, In (OGot r g) t1 -> In (ODone r) t1.
Lemma snoc_split {A} (t t1 t2 : list A) x y : t ++ [y] = t1 ++ x :: t2 -> (t2 = [] /\ t1 = t /\ x = y) \/ exists t3, t2 = t3 ++ [y] /\ t = t1 ++ x :: t3.
Proof.
  intro E. destruct (@exists_last _ (x :: t2) ltac:(discriminate)) as (u & z & U). destruct t2 as [|w t2].
  - left. apply app_inj_tail in E. destruct E as [-> ->]. now repeat split.
  - destruct (@exists_last _ (w :: t2) ltac:(discriminate)) as (t3 & z' & V). rewrite V in E. rewrite app_comm_cons, app_assoc in E. apply app_inj_tail in E. destruct E as [-> ->]. right. now exists t3.
Qed.

(** ** Objects, generators and caches *)
Definition is_ctx (k : kind) : Prop := match k with KCtx | KServ _ => True | _ => False end.
Definition is_root (k : kind) : Prop := match k with KSub _ => False | _ => True end.
Definition up (k : kind) (o : nat) : nat := match k with KSub r => r | _ => o end.
Definition rootof (s : st) (o : nat) : nat := match objs s o with Some x => up (knd x) o | None => o end.
Record GInv (t : list obs) (s : st) : Prop := mkGI {
  gRoot : forall o, root t o = rootof s o;
  gNew : forall g, ngen s <= g -> gens s g = g_zero /\ given g t = [] /\ forall c, ~ In g (cache s c);
  gObj : forall o x g, objs s o = Some x -> ogen x = Some g -> In (OGot (up (knd x) o) g) t;
  gGot : forall o g, In (OGot o g) t -> exists x, objs s o = Some x /\ is_root (knd x) /\ ogen x = Some g;
  gIn : forall c g, In g (cache s c) -> rel (gens s g) = None /\ exists r, given g t = [r] /\ In (ODone r) t;
  gNo : forall c, NoDup (cache s c);
  gOne : forall c c' g, In g (cache s c) -> In g (cache s c') -> c = c';
  gRel : forall g c, rel (gens s g) = Some c -> exists r, given g t = [r];
  gTwo : forall g, length (given g t) <= 2;
  gHand : handed t;
  gSub : forall o x r, objs s o = Some x -> knd x = KSub r -> ogen x <> None /\ exists y, objs s r = Some y /\ is_ctx (knd y) /\ ogen y = ogen x }.

Lemma gi_init : GInv [] s_init.
Proof.
  constructor; cbn; try (intros; contradiction); try (intros; discriminate); trivial.
  - intros g _. split; [reflexivity|]. now split.
  - intro. constructor.
  - intro. auto.
  - intros t1 o g t2 E. now destruct t1.
Qed.
Definition plain (x : obs) : Prop := match x with OGot _ _ | OMulti _ _ => False | _ => True end.
Lemma given_plain g t x : plain x -> given g (t ++ [x]) = given g t.
Proof. intro P. rewrite given_app. destruct x; try contradiction; cbn; apply app_nil_r. Qed.
Lemma hand_plain t x : plain x -> handed t -> handed (t ++ [x]).
Proof.
  intros P H t1 o g t2 E. apply snoc_split in E. destruct E as [(-> & -> & E)|(t3 & -> & ->)]; [subst x; contradiction|]. now apply (H t1 o g t3).
Qed.
(** an observation that is neither a new generator nor a new MultiRequest *)
Lemma gi_obs t s x : plain x -> GInv t s -> GInv (t ++ [x]) s.
Proof.
  intros P G. constructor.
  - intro o. rewrite root_snoc. destruct x; try contradiction; apply (gRoot _ _ G).
  - intros g H. rewrite given_plain by exact P. now apply (gNew _ _ G).
  - intros o y g H1 H2. apply in_snoc. left. eapply (gObj _ _ G); eassumption.
  - intros o g H. apply in_snoc in H. destruct H as [H|H]; [now apply (gGot _ _ G)|subst x; contradiction].
  - intros c g H. destruct (gIn _ _ G c g H) as (H1 & r & H2 & H3). split; [exact H1|]. exists r. rewrite given_plain by exact P. split; [exact H2|]. apply in_snoc. now left.
  - apply (gNo _ _ G).
  - apply (gOne _ _ G).
  - intros g c H. rewrite given_plain by exact P. now apply (gRel _ _ G g c).
  - intro g. rewrite given_plain by exact P. apply (gTwo _ _ G).
  - apply hand_plain; [exact P|apply (gHand _ _ G)].
  - apply (gSub _ _ G).
Qed.
(** a state with the same objects, caches and releases *)
Lemma gi_same t s s' : ngen s' = ngen s -> cache s' = cache s -> objs s' = objs s -> (forall g, ngen s <= g -> gens s' g = gens s g) -> (forall g, rel (gens s' g) = rel (gens s g)) -> GInv t s -> GInv t s'.
Proof.
  intros E1 E2 E3 E4 E5 G. constructor; rewrite ?E1, ?E2, ?E3; try apply G.
  - intro o. unfold rootof. rewrite E3. apply G.
  - intros g H. rewrite E4 by exact H. now apply G.
  - intros c g. rewrite E5. apply G.
  - intros g c. rewrite E5. apply G.
Qed.
(** the flags and the counter of an object *)
Lemma gi_flags t s o x b n : objs s o = Some x -> GInv t s -> GInv t (w_obj s o (mkObj (knd x) (ogen x) b n)).
Proof.
  intros O G. constructor; cbn [w_obj gens ngen cache objs]; try apply G.
  - intro o'. rewrite (gRoot _ _ G). unfold rootof. cbn. other o' o N; [now rewrite O|reflexivity].
  - intros o' y g. other o' o N; [|apply G]. intros H1 H2. injection H1 as <-. cbn in *. now apply (gObj _ _ G o x g).
  - intros o' g H. destruct (gGot _ _ G o' g H) as (y & Y1 & Y2 & Y3). other o' o N; [|now exists y]. rewrite O in Y1. injection Y1 as <-. eexists. split; [reflexivity|now split].
  - intros o' y r H1 H2.
    assert (K : exists x0, objs s o' = Some x0 /\ knd x0 = KSub r /\ ogen x0 = ogen y).
    { other o' o N; [injection H1 as <-; now exists x|now exists y]. }
    destruct K as (x0 & K1 & K2 & K3). destruct (gSub _ _ G o' x0 r K1 K2) as (X & z & Z1 & Z2 & Z3). rewrite K3 in *. split; [exact X|].
    other r o N; [|now exists z]. rewrite O in Z1. injection Z1 as <-. eexists. split; [reflexivity|now split].
Qed.
(** a new object without a generator *)
Lemma gi_new t s o k : objs s o = None -> is_root k -> GInv t s -> GInv t (w_obj s o (mkObj k None false 0)).
Proof.
  intros O K G. constructor; cbn [w_obj gens ngen cache objs]; try apply G.
  - intro o'. rewrite (gRoot _ _ G). unfold rootof. cbn. other o' o N; [rewrite O; now destruct k|reflexivity].
  - intros o' y g. other o' o N; [|apply G]. intros H1 H2. injection H1 as <-. discriminate.
  - intros o' g H. destruct (gGot _ _ G o' g H) as (y & Y1 & Y2 & Y3). other o' o N; [congruence|now exists y].
  - intros o' y r H1 H2. other o' o N; [injection H1 as <-; cbn in H2; subst k; contradiction|]. destruct (gSub _ _ G o' y r H1 H2) as (X & z & Z1 & Z2 & Z3). split; [exact X|].
    exists z. rewrite upd_other by congruence. now split.
Qed.
(** a new MultiRequest of a context *)
Lemma gi_multi t s o o' x g : objs s o = Some x -> is_ctx (knd x) -> ogen x = Some g -> objs s o' = None -> GInv t s -> GInv (t ++ [OMulti o o']) (w_obj s o' (mkObj (KSub o) (Some g) false 0)).
Proof.
  intros O K Eg O' G. assert (P : forall g, given g (t ++ [OMulti o o']) = given g t) by (intro; rewrite given_app; apply app_nil_r).
  constructor; cbn [w_obj gens ngen cache objs].
  - intro p. rewrite root_snoc. unfold rootof. cbn. destruct (Nat.eqb_spec o' p) as [<-|N]; [now rewrite upd_same|]. rewrite upd_other by congruence. apply (gRoot _ _ G).
  - intros h H. rewrite P. now apply (gNew _ _ G).
  - intros p y h. rewrite in_snoc. other p o' N.
    + intros H1 H2. injection H1 as <-. cbn in *. injection H2 as <-. left. assert (X : up (knd x) o = o) by (destruct (knd x); try contradiction; reflexivity). rewrite <- X. now apply (gObj _ _ G o x g).
    + intros H1 H2. left. now apply (gObj _ _ G p y h).
  - intros p h H. apply in_snoc in H. destruct H as [H|H]; [|discriminate]. destruct (gGot _ _ G p h H) as (y & Y1 & Y2 & Y3). exists y. other p o' N; [congruence|now split].
  - intros c h H. destruct (gIn _ _ G c h H) as (H1 & r & H2 & H3). split; [exact H1|]. exists r. rewrite P. split; [exact H2|]. apply in_snoc. now left.
  - apply (gNo _ _ G).
  - apply (gOne _ _ G).
  - intros h c H. rewrite P. now apply (gRel _ _ G h c).
  - intro h. rewrite P. apply (gTwo _ _ G).
  - intros t1 p h t2 E. apply snoc_split in E. destruct E as [(-> & -> & E)|(t3 & -> & ->)]; [discriminate|]. now apply (gHand _ _ G t1 p h t3).
  - intros p y r H1 H2. other p o' N.
    + injection H1 as <-. cbn in H2. injection H2 as <-. split; [discriminate|]. exists x. rewrite upd_other by congruence. now split.
    + destruct (gSub _ _ G p y r H1 H2) as (X & z & Z1 & Z2 & Z3). split; [exact X|]. exists z. rewrite upd_other by congruence. now split.
Qed.
(** an object is given a generator *)
Lemma gi_get t s c o g s1 k b n : GInv t s -> is_root k -> (objs s o = None \/ exists x, objs s o = Some x /\ knd x = k /\ ogen x = None) -> Get c s = (g, s1) ->
  GInv (t ++ [OGot o g]) (w_obj s1 o (mkObj k (Some g) b n)) /\ objs s1 = objs s /\ pcs s1 = pcs s /\ narr s1 = narr s /\ (forall h, ngen s1 <= h -> ngen s <= h) /\
  ((exists l, cache s c = g :: l /\ gens s1 = gens s) \/ (g = ngen s /\ gens s1 = upd (gens s) g (mkGen None 0 [] (Some c)))).
Proof.
  intros G K O E.
  assert (NG : forall h, ~ In (OGot o h) t).
  { intros h H. destruct (gGot _ _ G o h H) as (y & Y1 & Y2 & Y3). destruct O as [O|(x & O1 & O2 & O3)]; congruence. }
  assert (P : forall h, given h (t ++ [OGot o g]) = if g =? h then given h t ++ [o] else given h t).
  { intro h. rewrite given_app. cbn. destruct (g =? h); [reflexivity|apply app_nil_r]. }
  assert (RT : forall p s2, objs s2 = upd (objs s) o (Some (mkObj k (Some g) b n)) -> root (t ++ [OGot o g]) p = rootof s2 p).
  { intros p s2 E2. rewrite root_snoc, (gRoot _ _ G). unfold rootof. rewrite E2. other p o N; [|reflexivity]. destruct O as [O|(x & O1 & O2 & O3)]; rewrite ?O, ?O1, ?O2; cbn; destruct k; try reflexivity; contradiction. }
  assert (OB : forall p y h, upd (objs s) o (Some (mkObj k (Some g) b n)) p = Some y -> ogen y = Some h -> In (OGot (up (knd y) p) h) (t ++ [OGot o g])).
  { intros p y h. rewrite in_snoc. other p o N; intros H1 H2; [|left; now apply (gObj _ _ G p y h)]. injection H1 as <-. cbn in *. right. destruct k; try contradiction; cbn; congruence. }
  assert (GO : forall p h, In (OGot p h) (t ++ [OGot o g]) -> exists y, upd (objs s) o (Some (mkObj k (Some g) b n)) p = Some y /\ is_root (knd y) /\ ogen y = Some h).
  { intros p h H. apply in_snoc in H. destruct H as [H|H].
    - other p o N; [now apply NG in H|]. now apply (gGot _ _ G).
    - injection H as -> ->. rewrite upd_same. eexists. split; [reflexivity|now split]. }
  assert (SU : forall p y r, upd (objs s) o (Some (mkObj k (Some g) b n)) p = Some y -> knd y = KSub r -> ogen y <> None /\ exists z, upd (objs s) o (Some (mkObj k (Some g) b n)) r = Some z /\ is_ctx (knd z) /\ ogen z = ogen y).
  { intros p y r H1 H2. other p o N; [injection H1 as <-; cbn in H2; subst k; contradiction|]. destruct (gSub _ _ G p y r H1 H2) as (X & z & Z1 & Z2 & Z3). split; [exact X|]. exists z. rewrite upd_other; [now split|].
    intros ->. destruct O as [O|(x & O1 & O2 & O3)]; [congruence|]. rewrite O1 in Z1. injection Z1 as <-. congruence. }
  unfold Get in E. destruct (cache s c) as [|g0 l] eqn:C; injection E as <- <-.
  - (* a new generator *)
    set (g := ngen s) in *. destruct (gNew _ _ G g (le_n _)) as (Z1 & Z2 & Z3). split; [|cbn; repeat (split; [trivial; lia|]); right; now split].
    constructor; cbn [w_obj gens ngen cache objs narr pcs].
    + intro p. now apply RT.
    + intros h H. rewrite upd_other by lia. rewrite P. replace (g =? h) with false by (symmetry; apply Nat.eqb_neq; lia). apply (gNew _ _ G). lia.
    + exact OB.
    + exact GO.
    + intros d h H. assert (h <> g) by (intros ->; now apply Z3 in H). rewrite upd_other by assumption. destruct (gIn _ _ G d h H) as (H1 & r & H2 & H3). split; [exact H1|]. exists r. rewrite P.
      replace (g =? h) with false by (symmetry; apply Nat.eqb_neq; congruence). split; [exact H2|]. apply in_snoc. now left.
    + apply (gNo _ _ G).
    + apply (gOne _ _ G).
    + intros h d H. rewrite P. other h g N; [rewrite Nat.eqb_refl, Z2; now exists o|]. replace (g =? h) with false by (symmetry; apply Nat.eqb_neq; congruence). now apply (gRel _ _ G h d).
    + intro h. rewrite P. destruct (Nat.eqb_spec g h) as [<-|N]; [rewrite Z2; cbn; lia|apply (gTwo _ _ G)].
    + intros t1 p h t2 E. apply snoc_split in E. destruct E as [(-> & -> & E)|(t3 & -> & ->)]; [|now apply (gHand _ _ G t1 p h t3)]. injection E as -> ->. intros r H. apply given_in in H. rewrite Z2 in H. destruct H.
    + exact SU.
  - (* one from the cache *)
    assert (Ig : In g0 (cache s c)) by (rewrite C; now left). destruct (gIn _ _ G c g0 Ig) as (Rg & r0 & Gv & Dn). assert (ND : NoDup (g0 :: l)) by (rewrite <- C; apply (gNo _ _ G)). inversion ND as [|? ? N1 N2]. subst.
    assert (NI : forall d h, In h (upd (cache s) c l d) -> In h (cache s d) /\ h <> g0).
    { intros d h H. other d c N; [split; [rewrite C; now right|intros ->; now apply N1]|]. split; [exact H|]. intros ->. apply N. now apply (gOne _ _ G d c g0). }
    split; [|cbn; repeat (split; [trivial; lia|]); left; now exists l].
    constructor; cbn [w_obj w_cache gens ngen cache objs narr pcs].
    + intro p. now apply RT.
    + intros h H. assert (h <> g0) by (intros ->; destruct (gNew _ _ G g0 H) as (_ & _ & X); now apply (X c)). rewrite P. replace (g0 =? h) with false by (symmetry; apply Nat.eqb_neq; congruence).
      destruct (gNew _ _ G h H) as (X1 & X2 & X3). split; [exact X1|]. split; [exact X2|]. intros d X. apply NI in X. now apply (X3 d).
    + exact OB.
    + exact GO.
    + intros d h H. apply NI in H. destruct H as [H Nh]. destruct (gIn _ _ G d h H) as (H1 & r & H2 & H3). split; [exact H1|]. exists r. rewrite P. replace (g0 =? h) with false by (symmetry; apply Nat.eqb_neq; congruence).
      split; [exact H2|]. apply in_snoc. now left.
    + intro d. other d c N; [exact N2|apply (gNo _ _ G)].
    + intros d d' h H1 H2. apply NI in H1. apply NI in H2. now apply (gOne _ _ G d d' h).
    + intros h d H. rewrite P. destruct (Nat.eqb_spec g0 h) as [<-|N]; [congruence|]. now apply (gRel _ _ G h d).
    + intro h. rewrite P. destruct (Nat.eqb_spec g0 h) as [<-|N]; [rewrite Gv; cbn; lia|apply (gTwo _ _ G)].
    + intros t1 p h t2 E. apply snoc_split in E. destruct E as [(-> & -> & E)|(t3 & -> & ->)]; [|now apply (gHand _ _ G t1 p h t3)]. injection E as -> ->. intros r H. apply given_in in H. rewrite Gv in H. destruct H as [<-|[]]. exact Dn.
    + exact SU.
Qed.
(** an object gives its generator back *)
Lemma gi_release caps t s o x g : GInv t s -> objs s o = Some x -> is_root (knd x) -> ogen x = Some g -> In (ODone o) t -> GInv t (Release caps g s).
Proof.
  intros G O K Eg D. unfold Release. destruct (rel (gens s g)) as [c|] eqn:R; [|exact G].
  assert (Gv : given g t = [o]).
  { pose proof (gObj _ _ G o x g O Eg) as H. replace (up (knd x) o) with o in H by (destruct (knd x); try reflexivity; contradiction). apply given_in in H. destruct (gRel _ _ G g c R) as (r & Y). rewrite Y in *. now destruct H as [->|[]]. }
  assert (NI : forall d, ~ In g (cache s d)) by (intros d H; destruct (gIn _ _ G d g H); congruence).
  assert (Lt : g < ngen s) by (destruct (le_lt_dec (ngen s) g) as [H|H]; [destruct (gNew _ _ G g H) as (X & _); rewrite X in R; discriminate|exact H]).
  assert (G1 : GInv t (w_gen s g (mkGen (arr (gens s g)) (idx (gens s g)) (pend (gens s g)) None))).
  { constructor; cbn [w_gen gens ngen cache objs]; try apply G.
    - intros h H. rewrite upd_other by lia. now apply G.
    - intros d h H. other h g N; [now apply NI in H|now apply (gIn _ _ G d h)].
    - intros h d H. other h g N; [discriminate|now apply (gRel _ _ G h d)]. }
  destruct (_ <? _); [|exact G1].
  constructor; cbn [w_cache w_gen gens ngen cache objs] in *; try apply G1.
  - intros h H. assert (h <> g) by lia. destruct (gNew _ _ G1 h H) as (X1 & X2 & X3). split; [exact X1|]. split; [exact X2|]. intros d X. other d c N; [|now apply X3 in X]. apply in_snoc in X. destruct X as [X|X]; [now apply X3 in X|congruence].
  - intros d h H. destruct (Nat.eq_dec h g) as [->|Nh]; [rewrite upd_same; split; [reflexivity|]; now exists o|]. rewrite upd_other by exact Nh. apply (gIn _ _ G d). other d c N; [|exact H]. apply in_snoc in H. destruct H; [assumption|contradiction].
  - intro d. other d c N; [|apply (gNo _ _ G)]. apply nodup_snoc; [apply (gNo _ _ G)|apply NI].
  - intros d d' h H1 H2. destruct (Nat.eq_dec h g) as [->|Nh].
    + assert (Q : forall e, In g (upd (cache s) c (cache s c ++ [g]) e) -> e = c) by (intros e H; other e c N; [reflexivity|now apply NI in H]). rewrite (Q d H1), (Q d' H2). reflexivity.
    + assert (Q : forall e, In h (upd (cache s) c (cache s c ++ [g]) e) -> In h (cache s e)) by (intros e H; other e c N; [apply in_snoc in H; destruct H; [assumption|contradiction]|exact H]). now apply (gOne _ _ G d d' h); apply Q.
Qed.

(** ** Calls *)
Definition call_of (p : pc) : option (nat * value) :=
  match p with
  | PIdle => None
  | QGen o v | QAlloc o v _ _ | QSlot o v _ _ | QInc o v _ _ _ _ | QWrite o v _ _ _ _ | QTake o v _ _ _ _ | QRet o v _ _ _ _ _ => Some (o, v)
  end.
Definition gen_of (p : pc) : option nat :=
  match p with
  | PIdle | QGen _ _ => None
  | QAlloc _ _ g _ | QSlot _ _ g _ | QInc _ _ g _ _ _ | QWrite _ _ g _ _ _ | QTake _ _ g _ _ _ | QRet _ _ g _ _ _ _ => Some g
  end.
Record CInv (t : list obs) (s : st) : Prop := mkCI {
  cCur : forall k, cur t k = call_of (pcs s k);
  cObj : forall k o v, call_of (pcs s k) = Some (o, v) -> objs s o <> None;
  cGen : forall k o v g, call_of (pcs s k) = Some (o, v) -> gen_of (pcs s k) = Some g -> exists x, objs s o = Some x /\ ogen x = Some g }.
Lemma ci_init : CInv [] s_init.
Proof. constructor; cbn; try discriminate; trivial. Qed.
(** objects keep their generators *)
Definition grows (s s' : st) : Prop := forall o x, objs s o = Some x -> exists y, objs s' o = Some y /\ forall g, ogen x = Some g -> ogen y = Some g.
Lemma grows_refl s : grows s s.
Proof. intros o x H. now exists x. Qed.
Lemma grows_new s s' o y : objs s' = upd (objs s) o (Some y) -> (objs s o = None \/ exists x, objs s o = Some x /\ (ogen x = None \/ ogen x = ogen y)) -> grows s s'.
Proof.
  intros E H p x P. rewrite E. other p o N; [|now exists x]. exists y. split; [reflexivity|]. destruct H as [H|(x' & H1 & H2)]; [congruence|]. rewrite H1 in P. injection P as <-. destruct H2; congruence.
Qed.
Lemma ci_objs t s s' : pcs s' = pcs s -> grows s s' -> CInv t s -> CInv t s'.
Proof.
  intros E GR C. constructor; rewrite E.
  - apply C.
  - intros k o v H. specialize (cObj _ _ C k o v H). destruct (objs s o) as [x|] eqn:O; [|congruence]. destruct (GR o x O) as (y & Y & _). congruence.
  - intros k o v g H1 H2. destruct (cGen _ _ C k o v g H1 H2) as (x & X1 & X2). destruct (GR o x X1) as (y & Y1 & Y2). exists y. split; [exact Y1|now apply Y2].
Qed.
Definition silent (x : obs) : Prop := match x with OCall _ _ _ | OReq _ _ _ _ _ _ | OFail _ _ => False | _ => True end.
Lemma ci_obs t s x : silent x -> CInv t s -> CInv (t ++ [x]) s.
Proof. intros P C. constructor; try apply C. intro k. rewrite cur_snoc. destruct x; try contradiction; apply C. Qed.
(** a goroutine goes on with its call *)
Lemma ci_next t s k p : call_of p = call_of (pcs s k) -> (forall o v g, call_of p = Some (o, v) -> gen_of p = Some g -> exists x, objs s o = Some x /\ ogen x = Some g) -> CInv t s -> CInv t (w_pc s k p).
Proof.
  intros E1 E2 C. constructor; cbn.
  - intro j. rewrite (cCur _ _ C). other j k N; congruence.
  - intros j o v. other j k N; [|apply C]. rewrite E1. apply C.
  - intros j o v g. other j k N; [|apply C]. intros H1 H2. now apply (E2 o v).
Qed.
Lemma ci_end t s k x : CInv t s -> match x with OReq j _ _ _ _ _ | OFail j _ => j = k | _ => False end -> CInv (t ++ [x]) (w_pc s k PIdle).
Proof.
  intros C X. constructor; cbn.
  - intro j. rewrite cur_snoc. other j k N; [destruct x; try contradiction; subst; now rewrite Nat.eqb_refl|].
    assert (k =? j = false) by (apply Nat.eqb_neq; congruence). destruct x; try contradiction; subst; rewrite H; apply C.
  - intros j o v. other j k N; [discriminate|apply C].
  - intros j o v g. other j k N; [discriminate|apply C].
Qed.
Lemma ci_begin t s k o v : CInv t s -> objs s o <> None -> CInv (t ++ [OCall k o v]) (w_pc s k (QGen o v)).
Proof.
  intros C O. constructor; cbn.
  - intro j. rewrite cur_snoc. other j k N; [now rewrite Nat.eqb_refl|]. assert (k =? j = false) by (apply Nat.eqb_neq; congruence). rewrite H. apply C.
  - intros j o' v'. other j k N; [|apply C]. intro H. injection H as <- <-. exact O.
  - intros j o' v' g. other j k N; [discriminate|apply C].
Qed.

(** ** Exclusive use *)
Lemma exclusive_app t u : exclusive (t ++ u) -> exclusive t.
Proof. intros H t1 x t2 E. apply (H t1 x (t2 ++ u)). rewrite E, <- app_assoc. reflexivity. Qed.
Lemma exclusive_last t x : exclusive (t ++ [x]) -> match x with
  | OCall _ o _ | OMulti o _ => idle t (root t o) /\ ~ In (ODone (root t o)) t
  | ODone o => idle t (root t o)
  | _ => True end.
Proof. intro H. exact (H t x [] eq_refl). Qed.
Lemma failure_app t u : no_failure (t ++ u) -> no_failure t.
Proof. intros H k o b I. apply (H k o b). apply in_or_app. now left. Qed.
Lemma slots_app t u : slots (t ++ u) = slots t ++ slots u.
Proof. unfold slots. apply flat_map_app. Qed.
Lemma ids_app o t u : ids o (t ++ u) = ids o t ++ ids o u.
Proof. unfold ids. apply flat_map_app. Qed.
Definition slot_of (p : pc) : option (nat * nat) :=
  match p with QWrite _ _ _ _ a i | QTake _ _ _ _ a i | QRet _ _ _ _ a i _ => Some (a, i) | _ => None end.
Definition id_of (p : pc) : option nat :=
  match p with
  | PIdle | QGen _ _ => None
  | QAlloc _ _ _ id | QSlot _ _ _ id | QInc _ _ _ id _ _ | QWrite _ _ _ id _ _ | QTake _ _ _ id _ _ | QRet _ _ _ id _ _ _ => Some id
  end.
Record EInv (t : list obs) (s : st) : Prop := mkEI {
  eOne : forall k k' o v o' v', call_of (pcs s k) = Some (o, v) -> call_of (pcs s k') = Some (o', v') -> rootof s o = rootof s o' -> k = k';
  eLive : forall k o v, call_of (pcs s k) = Some (o, v) -> ~ In (ODone (rootof s o)) t }.
Record AInv (t : list obs) (s : st) : Prop := mkAI {
  aLt : forall g a, arr (gens s g) = Some a -> a < narr s;
  aInj : forall g g' a, arr (gens s g) = Some a -> arr (gens s g') = Some a -> g = g';
  aUsed : forall a i, In (a, i) (slots t) \/ (exists k, slot_of (pcs s k) = Some (a, i)) -> a < narr s /\ forall g, arr (gens s g) = Some a -> i < idx (gens s g);
  aNd : NoDup (slots t);
  aFree : forall k p, slot_of (pcs s k) = Some p -> ~ In p (slots t);
  aDist : forall k k' p, slot_of (pcs s k) = Some p -> slot_of (pcs s k') = Some p -> k = k';
  aInc : forall k o v g id a i, pcs s k = QInc o v g id a i -> arr (gens s g) = Some a /\ i = idx (gens s g);
  aSlot : forall k o v g id, pcs s k = QSlot o v g id -> arr (gens s g) <> None;
  aIdx : forall g, idx (gens s g) < 32 }.
Record BInv (t : list obs) (s : st) : Prop := mkBI {
  bPend : forall g, pend (gens s g) = [] \/ exists k o v id a i, pcs s k = QTake o v g id a i;
  bTake : forall k o v g id a i, pcs s k = QTake o v g id a i -> pend (gens s g) = bytes v;
  bRet : forall k o v g id a i b, pcs s k = QRet o v g id a i b -> b = bytes v;
  bTr : forall t1 k o id a i b t2, t = t1 ++ OReq k o id a i b :: t2 -> exists v, cur t1 k = Some (o, v) /\ b = bytes v }.
Inductive increasing : list nat -> Prop :=
| inc_nil : increasing []
| inc_snoc l n : increasing l -> (forall m, In m l -> m < n) -> increasing (l ++ [n]).
Record IInv (t : list obs) (s : st) : Prop := mkII {
  iNone : forall o, objs s o = None -> ids o t = [];
  iMul : forall o x, objs s o = Some x -> ~ is_ctx (knd x) -> ids o t = seq 0 (cnt x) /\ forall k v id, call_of (pcs s k) = Some (o, v) -> id_of (pcs s k) = Some id -> id = cnt x;
  iCtx : forall o x, objs s o = Some x -> is_ctx (knd x) -> increasing (ids o t) /\ (forall m, In m (ids o t) -> 1 <= m <= cnt x) /\
    forall k v id, call_of (pcs s k) = Some (o, v) -> id_of (pcs s k) = Some id -> id = cnt x /\ 1 <= id /\ forall m, In m (ids o t) -> m < id }.

Lemma ei_init : EInv [] s_init. Proof. constructor; cbn; discriminate. Qed.
Lemma ai_init : AInv [] s_init.
Proof. constructor; cbn; try discriminate. - intros a i [[]|[k X]]; discriminate. - constructor. - intros. lia. Qed.
Lemma bi_init : BInv [] s_init.
Proof. constructor; cbn; try discriminate; [now left|]. intros t1 k o id a i b t2 E. now destruct t1. Qed.
Lemma ii_init : IInv [] s_init. Proof. constructor; cbn; try discriminate; trivial. Qed.

(** two goroutines are not in calls with the same generator, and no such generator is in a cache *)
Lemma before g t r r' : In (OGot r g) t -> In (OGot r' g) t -> r <> r' -> handed t -> In (ODone r) t \/ In (ODone r') t.
Proof.
  intros H1 H2 N H. apply in_split in H2. destruct H2 as (t1 & t2 & E). specialize (H t1 r' g t2 E) as X. assert (Hr : In (OGot r g) (t1 ++ OGot r' g :: t2)) by (now rewrite <- E).
  apply in_app_or in Hr. destruct Hr as [Hr|[Hr|Hr]]; [left; rewrite E; apply in_or_app; left; now apply X|congruence|].
  right. apply in_split in Hr. destruct Hr as (t3 & t4 & E'). assert (Y : t = (t1 ++ OGot r' g :: t3) ++ OGot r g :: t4) by (rewrite E, E', <- app_assoc; reflexivity).
  specialize (H _ r g t4 Y r'). rewrite Y. apply in_or_app. left. apply H. apply in_or_app. right. now left.
Qed.
Lemma call_got t s k o v g : GInv t s -> CInv t s -> call_of (pcs s k) = Some (o, v) -> gen_of (pcs s k) = Some g -> In (OGot (rootof s o) g) t.
Proof. intros G C H1 H2. destruct (cGen _ _ C k o v g H1 H2) as (x & X1 & X2). unfold rootof. rewrite X1. now apply (gObj _ _ G). Qed.
Lemma in_call k s g : gen_of (pcs s k) = Some g -> exists o v, call_of (pcs s k) = Some (o, v).
Proof. destruct (pcs s k); try discriminate; cbn; intros _; eexists; eexists; reflexivity. Qed.
Lemma gen_one t s k k' g : GInv t s -> CInv t s -> EInv t s -> gen_of (pcs s k) = Some g -> gen_of (pcs s k') = Some g -> k = k'.
Proof.
  intros G C E H1 H2. destruct (in_call _ _ _ H1) as (o & v & O). destruct (in_call _ _ _ H2) as (o' & v' & O'). apply (eOne _ _ E k k' o v o' v' O O').
  destruct (Nat.eq_dec (rootof s o) (rootof s o')) as [X|X]; [exact X|exfalso]. pose proof (call_got _ _ _ _ _ _ G C O H1) as I1. pose proof (call_got _ _ _ _ _ _ G C O' H2) as I2.
  destruct (before g t _ _ I1 I2 X (gHand _ _ G)) as [D|D]; revert D; eapply (eLive _ _ E); eassumption.
Qed.

(** ** Steps that leave the calls alone *)
Record calm (s s' : st) : Prop := mkCalm {
  mNarr : narr s' = narr s;
  mPcs : pcs s' = pcs s;
  mObj : forall o x, objs s o = Some x -> exists y, objs s' o = Some y /\ knd y = knd x /\ (ogen x <> None -> ogen y = ogen x);
  mArr : forall g, arr (gens s' g) = arr (gens s g);
  mIdx : forall g, idx (gens s' g) = idx (gens s g);
  mPend : forall g, pend (gens s' g) = pend (gens s g) }.
(** ... and the counters *)
Record counts (s s' : st) : Prop := mkCts {
  nObj : forall o x, objs s o = Some x -> exists y, objs s' o = Some y /\ cnt y = cnt x;
  nNew : forall o, objs s o = None -> objs s' o = None \/ exists y, objs s' o = Some y /\ cnt y = 0 }.
Lemma counts_same s s' : objs s' = objs s -> counts s s'.
Proof. intro E. constructor; rewrite E; [intros o x H; now exists x|now left]. Qed.
Lemma counts_obj s o y : match objs s o with None => cnt y = 0 | Some x => cnt y = cnt x end -> counts s (w_obj s o y).
Proof.
  intro H. constructor; cbn.
  - intros p x P. other p o N; [rewrite P in H; now exists y|now exists x].
  - intros p P. other p o N; [rewrite P in H; right; now exists y|now left].
Qed.
Lemma counts_trans s1 s2 s3 : counts s1 s2 -> counts s2 s3 -> counts s1 s3.
Proof.
  intros A B. constructor.
  - intros o x H. destruct (nObj _ _ A o x H) as (y & Y1 & Y2). destruct (nObj _ _ B o y Y1) as (z & Z1 & Z2). exists z. split; [exact Z1|congruence].
  - intros o H. destruct (nNew _ _ A o H) as [Y|(y & Y1 & Y2)]; [now apply (nNew _ _ B)|]. destruct (nObj _ _ B o y Y1) as (z & Z1 & Z2). right. exists z. split; [exact Z1|congruence].
Qed.
Lemma calm_refl s : calm s s.
Proof. constructor; trivial. intros o x H. now exists x. Qed.
Lemma calm_trans s1 s2 s3 : calm s1 s2 -> calm s2 s3 -> calm s1 s3.
Proof.
  intros A B. constructor; try (intros; etransitivity; [apply B|apply A]).
  intros o x H. destruct (mObj _ _ A o x H) as (y & Y1 & Y2 & Y4). destruct (mObj _ _ B o y Y1) as (z & Z1 & Z2 & Z4). exists z. split; [exact Z1|]. split; [congruence|]. intro N. specialize (Y4 N). rewrite Z4; congruence.
Qed.
Lemma calm_obj s o y : match objs s o with None => True | Some x => knd y = knd x /\ (ogen x <> None -> ogen y = ogen x) end -> calm s (w_obj s o y).
Proof.
  intro H. constructor; trivial; cbn. intros p x P. other p o N; [rewrite P in H; now exists y|now exists x].
Qed.
Lemma calm_get t s c g s1 : GInv t s -> Get c s = (g, s1) -> calm s s1.
Proof.
  intros G E. unfold Get in E. destruct (cache s c) eqn:C; injection E as <- <-; constructor; trivial; cbn; try (intros o x H; now exists x).
  all: intro h; other h (ngen s) N; trivial; now destruct (gNew _ _ G (ngen s) (le_n _)) as (-> & _).
Qed.
Lemma calm_release caps g s : calm s (Release caps g s).
Proof.
  unfold Release. destruct (rel (gens s g)); [|apply calm_refl]. destruct (_ <? _); (constructor; trivial; cbn; try (intros o x H; now exists x); intro h; other h g N; reflexivity).
Qed.
Definition mute (x : obs) : Prop := match x with ONew _ _ | OGot _ _ | OMulti _ _ => True | _ => False end.
Lemma calm_rootof s s' o : calm s s' -> objs s o <> None -> rootof s' o = rootof s o.
Proof. intros M O. unfold rootof. destruct (objs s o) as [x|] eqn:X; [|congruence]. destruct (mObj _ _ M o x X) as (y & -> & -> & _). reflexivity. Qed.
Lemma calm_call s s' k : calm s s' -> call_of (pcs s' k) = call_of (pcs s k). Proof. intro M. now rewrite (mPcs _ _ M). Qed.
Lemma ei_calm t s s' u : calm s s' -> CInv t s -> (forall x, In x u -> mute x) -> EInv t s -> EInv (t ++ u) s'.
Proof.
  intros M C U E. constructor; rewrite (mPcs _ _ M).
  - intros k k' o v o' v' H1 H2. rewrite !(calm_rootof s s') by (trivial; eapply (cObj _ _ C); eassumption). now apply (eOne _ _ E k k' o v o' v').
  - intros k o v H. rewrite (calm_rootof s s') by (trivial; eapply (cObj _ _ C); eassumption). intro X. apply in_app_or in X. destruct X as [X|X]; [now apply (eLive _ _ E k o v)|now apply U in X].
Qed.
Lemma mute_slots u : (forall x, In x u -> mute x \/ exists o, x = ODone o) -> slots u = [].
Proof.
  induction u as [|x u IH]; intro U; [reflexivity|]. change (slots ([x] ++ u) = []). rewrite slots_app, IH by (intros y Y; apply U; now right). destruct (U x (or_introl eq_refl)) as [H|[o ->]]; [destruct x; try contradiction; reflexivity|reflexivity].
Qed.
Lemma mute_ids o u : (forall x, In x u -> mute x \/ exists o, x = ODone o) -> ids o u = [].
Proof.
  induction u as [|x u IH]; intro U; [reflexivity|]. change (ids o ([x] ++ u) = []). rewrite ids_app, IH by (intros y Y; apply U; now right). destruct (U x (or_introl eq_refl)) as [H|[p ->]]; [destruct x; try contradiction; reflexivity|reflexivity].
Qed.
Lemma ai_calm t s s' u : calm s s' -> slots u = [] -> AInv t s -> AInv (t ++ u) s'.
Proof.
  intros M U A. assert (S : slots (t ++ u) = slots t) by (rewrite slots_app, U; apply app_nil_r).
  constructor; rewrite ?S, ?(mPcs _ _ M), ?(mNarr _ _ M); try apply A.
  - intros g a. rewrite (mArr _ _ M). apply A.
  - intros g g' a. rewrite !(mArr _ _ M). apply A.
  - intros a i H. destruct (aUsed _ _ A a i H) as [X Y]. split; [exact X|]. intros g. rewrite (mArr _ _ M), (mIdx _ _ M). apply Y.
  - intros k o v g id a i H. rewrite (mArr _ _ M), (mIdx _ _ M). now apply (aInc _ _ A k o v g id a i).
  - intros k o v g id H. rewrite (mArr _ _ M). now apply (aSlot _ _ A k o v g id).
  - intro g. rewrite (mIdx _ _ M). apply A.
Qed.
Definition no_req (u : list obs) : Prop := forall x, In x u -> match x with OReq _ _ _ _ _ _ => False | _ => True end.
Lemma tr_app t u : no_req u -> (forall t1 k o id a i b t2, t = t1 ++ OReq k o id a i b :: t2 -> exists v, cur t1 k = Some (o, v) /\ b = bytes v) ->
  forall t1 k o id a i b t2, t ++ u = t1 ++ OReq k o id a i b :: t2 -> exists v, cur t1 k = Some (o, v) /\ b = bytes v.
Proof.
  induction u as [|x u IH] using rev_ind; intros U H t1 k o id a i b t2 E; [rewrite app_nil_r in E; now apply (H t1 k o id a i b t2)|].
  rewrite app_assoc in E. apply snoc_split in E. destruct E as [(-> & -> & E)|(t3 & -> & E)].
  - exfalso. specialize (U x). rewrite <- E in U. apply U. apply in_snoc. now right.
  - apply (IH (fun y Y => U y (in_or_app _ _ _ (or_introl Y))) H t1 k o id a i b t3 E).
Qed.
Lemma bi_calm t s s' u : calm s s' -> no_req u -> BInv t s -> BInv (t ++ u) s'.
Proof.
  intros M U B. constructor; rewrite ?(mPcs _ _ M).
  - intro g. rewrite (mPend _ _ M). apply B.
  - intros k o v g id a i H. rewrite (mPend _ _ M). now apply (bTake _ _ B k o v g id a i).
  - apply B.
  - apply tr_app; [exact U|apply B].
Qed.
Lemma ii_calm t s s' u : calm s s' -> counts s s' -> CInv t s -> (forall o, ids o u = []) -> IInv t s -> IInv (t ++ u) s'.
Proof.
  intros M V C U I. assert (S : forall o, ids o (t ++ u) = ids o t) by (intro o; rewrite ids_app, U; apply app_nil_r).
  assert (NC : forall o k v, objs s o = None -> call_of (pcs s k) <> Some (o, v)) by (intros o k v O X; now apply (cObj _ _ C k o v)).
  constructor; rewrite ?(mPcs _ _ M).
  - intros o O. rewrite S. apply (iNone _ _ I). destruct (objs s o) as [x|] eqn:X; [|reflexivity]. destruct (mObj _ _ M o x X) as (y & Y & _). congruence.
  - intros o y O K. rewrite S. destruct (objs s o) as [x|] eqn:X.
    + destruct (mObj _ _ M o x X) as (y' & Y1 & Y2 & _). destruct (nObj _ _ V o x X) as (y'' & Y1' & Y3). assert (y' = y) by congruence. assert (y'' = y) by congruence. subst y' y''. rewrite Y3. rewrite Y2 in K. now apply (iMul _ _ I o x X).
    + destruct (nNew _ _ V o X) as [Y|(y' & Y1 & Y2)]; [congruence|]. assert (y' = y) by congruence. subst y'. rewrite Y2, (iNone _ _ I o X). split; [reflexivity|]. intros k v id H. now apply NC in H.
  - intros o y O K. rewrite S. destruct (objs s o) as [x|] eqn:X.
    + destruct (mObj _ _ M o x X) as (y' & Y1 & Y2 & _). destruct (nObj _ _ V o x X) as (y'' & Y1' & Y3). assert (y' = y) by congruence. assert (y'' = y) by congruence. subst y' y''. rewrite Y3. rewrite Y2 in K. now apply (iCtx _ _ I o x X).
    + rewrite (iNone _ _ I o X). split; [constructor|]. split; [intros m []|]. intros k v id H. now apply NC in H.
Qed.
Lemma calm_grows s s' : calm s s' -> grows s s'.
Proof. intros M o x H. destruct (mObj _ _ M o x H) as (y & Y1 & Y2 & Y4). exists y. split; [exact Y1|]. intros g E. rewrite <- E. apply Y4. congruence. Qed.
Lemma ci_calm t s s' u : calm s s' -> (forall x, In x u -> silent x) -> CInv t s -> CInv (t ++ u) s'.
Proof.
  intros M U C. apply ci_objs with (s := s); [apply M|now apply calm_grows|]. revert U. induction u as [|x u IH] using rev_ind; intro U; [now rewrite app_nil_r|].
  rewrite app_assoc. apply ci_obs; [apply U; apply in_snoc; now right|]. apply IH. intros y Y. apply U. apply in_snoc. now left.
Qed.

(** ** Steps *)
Record All (t : list obs) (s : st) : Prop := mkAll {
  xG : GInv t s; xC : CInv t s;
  xE : exclusive t -> EInv t s;
  xA : exclusive t -> AInv t s;
  xI : exclusive t -> IInv t s;
  xB : exclusive t -> no_failure t -> BInv t s }.
Lemma all_init : All [] s_init.
Proof. constructor; intros; [apply gi_init|apply ci_init|apply ei_init|apply ai_init|apply ii_init|apply bi_init]. Qed.
Lemma mute_req u : (forall x, In x u -> mute x) -> no_req u.
Proof. intros U x X. specialize (U x X). now destruct x. Qed.
Lemma all_calm t s s' u : All t s -> calm s s' -> counts s s' -> (forall x, In x u -> mute x) -> GInv (t ++ u) s' -> All (t ++ u) s'.
Proof.
  intros A M V U G. pose proof (xC _ _ A) as C.
  assert (US : forall x, In x u -> silent x) by (intros x X; specialize (U x X); now destruct x).
  constructor; try exact G; [now apply ci_calm with (s := s)| | | |]; intro X; pose proof (exclusive_app _ _ X) as X'.
  - apply ei_calm with (s := s); trivial. now apply (xE _ _ A).
  - apply ai_calm with (s := s); trivial; [|now apply (xA _ _ A)]. apply mute_slots. intros x Y. left. now apply U.
  - apply ii_calm with (s := s); trivial; [|now apply (xI _ _ A)]. intro o. apply mute_ids. intros x Y. left. now apply U.
  - intro F. apply bi_calm with (s := s); trivial; [now apply mute_req|]. apply (xB _ _ A); trivial. now apply failure_app in F.
Qed.
Lemma get_objs c s g s1 : Get c s = (g, s1) -> objs s1 = objs s.
Proof. unfold Get. destruct (cache s c); intro E; injection E as <- <-; reflexivity. Qed.
Lemma need_inv t s o x u g x' s' : GInv t s -> objs s o = Some x -> need o x s = (u, (g, x', s')) ->
  GInv (t ++ u) s' /\ calm s s' /\ counts s s' /\ objs s' o = Some x' /\ ogen x' = Some g /\ knd x' = knd x /\ cnt x' = cnt x /\ (forall y, In y u -> mute y).
Proof.
  intros G O E. unfold need in E. destruct (ogen x) as [g0|] eqn:Og.
  - injection E as <- <- <- <-. rewrite app_nil_r. split; [exact G|]. split; [apply calm_refl|]. split; [now apply counts_same|]. split; [exact O|]. split; [exact Og|]. split; [reflexivity|]. split; [reflexivity|]. intros y [].
  - destruct (Get 0 s) as [g1 s1] eqn:Eg. injection E as <- <- <- <-. pose proof (get_objs _ _ _ _ Eg) as Eo.
    assert (K : is_root (knd x)) by (destruct (knd x) eqn:Kx; try exact Logic.I; destruct (gSub _ _ G o x r O Kx) as [Z _]; congruence).
    destruct (gi_get t s 0 o g1 s1 (knd x) true (cnt x) G K (or_intror (ex_intro _ x (conj O (conj eq_refl Og)))) Eg) as (G1 & _).
    split; [exact G1|]. split; [eapply calm_trans; [eapply calm_get; eassumption|apply calm_obj; rewrite Eo, O; cbn; repeat split; congruence]|].
    split; [eapply counts_trans; [apply counts_same; exact Eo|apply counts_obj; rewrite Eo, O; reflexivity]|]. cbn. split; [apply upd_same|]. split; [reflexivity|]. split; [reflexivity|]. split; [reflexivity|]. intros y [<-|[]]. exact Logic.I.
Qed.
Lemma root_idem t s o : GInv t s -> rootof s (rootof s o) = rootof s o.
Proof.
  intro G. unfold rootof. destruct (objs s o) as [x|] eqn:O; [|now rewrite O]. destruct (knd x) eqn:K; cbn; try (rewrite O, K; reflexivity).
  destruct (gSub _ _ G o x r O K) as (_ & y & Y1 & Y2 & _). rewrite Y1. destruct (knd y); try reflexivity. destruct Y2.
Qed.

(** Done *)
Lemma all_done caps t s o u s' : All t s -> step_done caps s o = (u, s') -> All (t ++ u) s'.
Proof.
  intros A E. unfold step_done in E. destruct (objs s o) as [x|] eqn:O; [|injection E as <- <-; now rewrite app_nil_r].
  assert (D : GInv (t ++ [ODone o]) s) by (apply gi_obs; [exact Logic.I|apply A]). assert (Id : In (ODone o) (t ++ [ODone o])) by (apply in_snoc; now right).
  assert (X : u = [ODone o] /\ calm s s' /\ counts s s' /\ GInv (t ++ [ODone o]) s').
  { assert (N : forall v, ([ODone o], s) = (u, v) -> u = [ODone o] /\ calm s v /\ counts s v /\ GInv (t ++ [ODone o]) v) by (intros v V; injection V as <- <-; split; [reflexivity|]; split; [apply calm_refl|]; split; [now apply counts_same|exact D]).
    assert (R : forall s1 y g, calm s s1 -> counts s s1 -> GInv (t ++ [ODone o]) s1 -> objs s1 o = Some y -> is_root (knd y) -> ogen y = Some g -> ([ODone o], Release caps g s1) = (u, s') -> u = [ODone o] /\ calm s s' /\ counts s s' /\ GInv (t ++ [ODone o]) s').
    { intros s1 y g M V G Y1 Y2 Y3 Z. injection Z as <- <-. split; [reflexivity|]. split; [eapply calm_trans; [exact M|apply calm_release]|]. split; [eapply counts_trans; [exact V|apply counts_same]; unfold Release; destruct (rel _); trivial; now destruct (_ <? _)|]. eapply gi_release; eassumption. }
    destruct (knd x) eqn:K; try (now apply N); (destruct (ogen x) as [g|] eqn:Og; [|now apply N]).
    - destruct (own x); [|now apply N]. apply (R (w_obj s o (mkObj KCtx (Some g) false (cnt x))) (mkObj KCtx (Some g) false (cnt x)) g); try reflexivity; try exact Logic.I; try exact E; [| |rewrite <- K, <- Og; now apply gi_flags|apply upd_same].
      + apply calm_obj. rewrite O, K, Og. now split.
      + apply counts_obj. now rewrite O.
    - destruct (own x); [|now apply N]. apply (R s x g); trivial; [apply calm_refl|now apply counts_same|now rewrite K].
    - apply (R s x g); trivial; [apply calm_refl|now apply counts_same|now rewrite K]. }
  destruct X as (-> & M & V & G). pose proof (xC _ _ A) as C.
  constructor; try exact G; [apply ci_calm with (s := s); trivial; intros y [<-|[]]; exact Logic.I| | | |]; intro Ex; pose proof (exclusive_app _ _ Ex) as X'.
  - pose proof (xE _ _ A X') as Ei. pose proof (exclusive_last _ _ Ex) as L. cbn in L. constructor; rewrite (mPcs _ _ M).
    + intros k k' p v p' v' H1 H2. rewrite !(calm_rootof s s') by (trivial; eapply (cObj _ _ C); eassumption). now apply (eOne _ _ Ei k k' p v p' v').
    + intros k p v H. rewrite (calm_rootof s s') by (trivial; eapply (cObj _ _ C); eassumption). rewrite in_snoc. intros [Y|Y]; [now apply (eLive _ _ Ei k p v)|]. injection Y as Y.
      rewrite <- (cCur _ _ C) in H. specialize (L k p v H). rewrite !(gRoot _ _ (xG _ _ A)) in L. apply L. rewrite <- Y. symmetry. eapply root_idem. apply A.
  - apply ai_calm with (s := s); trivial. now apply (xA _ _ A).
  - apply ii_calm with (s := s); trivial. now apply (xI _ _ A).
  - intro F. apply bi_calm with (s := s); trivial; [intros y [<-|[]]; exact Logic.I|]. apply (xB _ _ A); trivial. now apply failure_app in F.
Qed.
(** New, Serve, NewMulti *)
Lemma all_new t s o k : All t s -> objs s o = None -> is_root k -> All (t ++ [ONew o k]) (w_obj s o (mkObj k None false 0)).
Proof.
  intros A O K. apply all_calm with (s := s); trivial.
  - apply calm_obj. now rewrite O.
  - apply counts_obj. now rewrite O.
  - intros y [<-|[]]. exact Logic.I.
  - apply gi_obs; [exact Logic.I|]. apply gi_new; trivial. apply A.
Qed.
Lemma all_serve t s o n g s1 : All t s -> objs s o = None -> Get (S n) s = (g, s1) -> All (t ++ [ONew o (KServ n); OGot o g]) (w_obj s1 o (mkObj (KServ n) (Some g) false 0)).
Proof.
  intros A O E. pose proof (get_objs _ _ _ _ E) as Eo. apply all_calm with (s := s); trivial.
  - eapply calm_trans; [eapply calm_get; [apply A|eassumption]|]. apply calm_obj. now rewrite Eo, O.
  - eapply counts_trans; [apply counts_same; exact Eo|]. apply counts_obj. now rewrite Eo, O.
  - intros y [<-|[<-|[]]]; exact Logic.I.
  - change (t ++ [ONew o (KServ n); OGot o g]) with (t ++ [ONew o (KServ n)] ++ [OGot o g]). rewrite app_assoc.
    eapply gi_get; [apply gi_obs; [exact Logic.I|apply A]|exact Logic.I|now left|exact E].
Qed.
Lemma all_multi t s o o' u s' : All t s -> step_multi s o o' = (u, s') -> All (t ++ u) s'.
Proof.
  intros A E. unfold step_multi in E. assert (N : ok s = (u, s') -> All (t ++ u) s') by (intro H; injection H as <- <-; now rewrite app_nil_r).
  destruct (objs s o) as [x|] eqn:O; [|now apply N]. destruct (objs s o') eqn:O'; [now apply N|].
  assert (Y : is_ctx (knd x) -> (let '(t0, (g, _, s0)) := need o x s in (t0 ++ [OMulti o o'], w_obj s0 o' (mkObj (KSub o) (Some g) false 0))) = (u, s') -> All (t ++ u) s').
  { intros K Z. destruct (need o x s) as [u0 [[g x'] s0]] eqn:Nd. injection Z as <- <-. destruct (need_inv t s o x u0 g x' s0 (xG _ _ A) O Nd) as (G & M & V & X1 & X2 & X3 & X4 & U). rewrite app_assoc.
    assert (A0 : All (t ++ u0) s0) by (now apply all_calm with (s := s)).
    assert (O0 : objs s0 o' = None).
    { assert (o <> o') by congruence. unfold need in Nd. destruct (ogen x); [injection Nd as <- <- <- <-; exact O'|]. destruct (Get 0 s) as [g1 s1] eqn:Eg. injection Nd as <- <- <- <-. cbn. rewrite upd_other by congruence. now rewrite (get_objs _ _ _ _ Eg). }
    apply all_calm with (s := s0); trivial.
    - apply calm_obj. now rewrite O0.
    - apply counts_obj. now rewrite O0.
    - intros y [<-|[]]. exact Logic.I.
    - apply gi_multi with (x := x'); trivial. now rewrite X3. }
  destruct (knd x); try (now apply N); now apply Y.
Qed.

(** a goroutine goes on: nothing but its place and the generator changes *)
Lemma rootof_same s s' o : objs s' = objs s -> rootof s' o = rootof s o.
Proof. intro E. unfold rootof. now rewrite E. Qed.
Lemma ei_next t s s' k p : objs s' = objs s -> pcs s' = upd (pcs s) k p -> call_of p = call_of (pcs s k) -> EInv t s -> EInv t s'.
Proof.
  intros E1 E2 E3 E. assert (Q : forall j, call_of (pcs s' j) = call_of (pcs s j)) by (intro j; rewrite E2; other j k N; congruence).
  constructor.
  - intros j j' o v o' v'. rewrite !Q, !(rootof_same s s') by exact E1. apply E.
  - intros j o v. rewrite Q, (rootof_same s s') by exact E1. apply E.
Qed.
Lemma ii_next t s s' k p : objs s' = objs s -> pcs s' = upd (pcs s) k p -> call_of p = call_of (pcs s k) -> id_of p = id_of (pcs s k) -> IInv t s -> IInv t s'.
Proof.
  intros E1 E2 E3 E4 I. assert (Q : forall j, call_of (pcs s' j) = call_of (pcs s j)) by (intro j; rewrite E2; other j k N; congruence).
  assert (R : forall j, id_of (pcs s' j) = id_of (pcs s j)) by (intro j; rewrite E2; other j k N; congruence).
  constructor; rewrite E1.
  - apply I.
  - intros o x O K. destruct (iMul _ _ I o x O K) as [X Y]. split; [exact X|]. intros j v id. rewrite Q, R. apply Y.
  - intros o x O K. destruct (iCtx _ _ I o x O K) as (X & Y & Z). split; [exact X|]. split; [exact Y|]. intros j v id. rewrite Q, R. apply Z.
Qed.
(** the end of a call *)
Lemma ei_end t s s' k x : (forall o, x <> ODone o) -> objs s' = objs s \/ (exists o y n, objs s o = Some y /\ objs s' = upd (objs s) o (Some (mkObj (knd y) (ogen y) (own y) n))) -> pcs s' = upd (pcs s) k PIdle -> EInv t s -> EInv (t ++ [x]) s'.
Proof.
  intros Nx E1 E2 E. assert (R : forall o, rootof s' o = rootof s o).
  { intro o. destruct E1 as [E1|(p & y & n & Y & E1)]; [now apply rootof_same|]. unfold rootof. rewrite E1. other o p N; [now rewrite Y|reflexivity]. }
  constructor; rewrite E2.
  - intros j j' o v o' v'. rewrite !R. other j k N; [discriminate|]. other j' k N'; [discriminate|]. apply E.
  - intros j o v. rewrite R, in_snoc. other j k N; [discriminate|]. intros H [X|X]; [now apply (eLive _ _ E j o v)|]. symmetry in X. now apply Nx in X.
Qed.
Lemma ii_end t s s' k x : (forall o, ids o [x] = []) -> objs s' = objs s -> pcs s' = upd (pcs s) k PIdle -> IInv t s -> IInv (t ++ [x]) s'.
Proof.
  intros Nx E1 E2 I. assert (S : forall o, ids o (t ++ [x]) = ids o t) by (intro o; rewrite ids_app, Nx; apply app_nil_r). constructor; rewrite E1.
  - intros o O. rewrite S. now apply I.
  - intros o y O K. rewrite S. destruct (iMul _ _ I o y O K) as [X Y]. split; [exact X|]. intros j v id. rewrite E2. other j k N; [discriminate|apply Y].
  - intros o y O K. rewrite S. destruct (iCtx _ _ I o y O K) as (X & Y & Z). split; [exact X|]. split; [exact Y|]. intros j v id. rewrite E2. other j k N; [discriminate|apply Z].
Qed.

(** Call *)
Lemma all_call t s k o v : All t s -> pcs s k = PIdle -> objs s o <> None -> All (t ++ [OCall k o v]) (w_pc s k (QGen o v)).
Proof.
  intros A P O. constructor; [|apply ci_begin; [apply A|exact O]| | | |].
  - apply gi_obs; [exact Logic.I|]. apply gi_same with (s := s); trivial. apply A.
  - intro X. pose proof (exclusive_app _ _ X) as X'. pose proof (exclusive_last _ _ X) as [L1 L2]. pose proof (xE _ _ A X') as E. rewrite (gRoot _ _ (xG _ _ A)) in *. unfold idle in L1.
    assert (L : forall j p w, call_of (pcs s j) = Some (p, w) -> rootof s p <> rootof s o) by (intros j p w H; rewrite <- (gRoot _ _ (xG _ _ A)); apply (L1 j p w); now rewrite (cCur _ _ (xC _ _ A))).
    constructor; cbn.
    + intros j j' p w p' w' H1 H2. assert (W : forall z, rootof (w_pc s k (QGen o v)) z = rootof s z) by reflexivity. rewrite !W. other j k N; other j' k N'; trivial.
      * injection H1 as <- <-. intro Z. symmetry in Z. now apply L in H2.
      * injection H2 as <- <-. intro Z. now apply L in H1.
      * now apply (eOne _ _ E j j' p w p' w').
    + intros j p w H. change (rootof (w_pc s k (QGen o v)) p) with (rootof s p). rewrite in_snoc. intros [Z|Z]; [|discriminate]. other j k N; [injection H as <- <-; now apply L2|now apply (eLive _ _ E j p w)].
  - intro X. pose proof (exclusive_app _ _ X) as X'. pose proof (xA _ _ A X') as B. assert (S : slots (t ++ [OCall k o v]) = slots t) by (rewrite slots_app; apply app_nil_r).
    assert (T : forall j p, slot_of (upd (pcs s) k (QGen o v) j) = Some p -> slot_of (pcs s j) = Some p) by (intros j p; other j k N; trivial; discriminate).
    constructor; rewrite ?S; cbn; try apply B.
    + intros a i [H|[j H]]; apply B; [now left|right; exists j; now apply T].
    + intros j p H. apply T in H. now apply (aFree _ _ B j p).
    + intros j j' p H1 H2. apply T in H1. apply T in H2. now apply (aDist _ _ B j j' p).
    + intros j p w g id a i H. other j k N; [discriminate|now apply (aInc _ _ B j p w g id a i)].
    + intros j p w g id H. other j k N; [discriminate|now apply (aSlot _ _ B j p w g id)].
  - intro X. pose proof (exclusive_app _ _ X) as X'. pose proof (xI _ _ A X') as I. assert (S : forall p, ids p (t ++ [OCall k o v]) = ids p t) by (intro p; rewrite ids_app; apply app_nil_r). constructor; cbn.
    + intros p Op. rewrite S. now apply I.
    + intros p x Op K. rewrite S. destruct (iMul _ _ I p x Op K) as [Y Z]. split; [exact Y|]. intros j w id. other j k N; [discriminate|apply Z].
    + intros p x Op K. rewrite S. destruct (iCtx _ _ I p x Op K) as (Y & Y' & Z). split; [exact Y|]. split; [exact Y'|]. intros j w id. other j k N; [discriminate|apply Z].
  - intros X F. pose proof (exclusive_app _ _ X) as X'. pose proof (xB _ _ A X' (failure_app _ _ F)) as B. constructor; cbn.
    + intro g. destruct (bPend _ _ B g) as [H|(j & p & w & id & a & i & H)]; [now left|]. right. exists j, p, w, id, a, i. other j k N; [congruence|exact H].
    + intros j p w g id a i H. other j k N; [discriminate|now apply (bTake _ _ B j p w g id a i)].
    + intros j p w g id a i b H. other j k N; [discriminate|now apply (bRet _ _ B j p w g id a i b)].
    + apply tr_app; [intros y [<-|[]]; exact Logic.I|apply B].
Qed.
(** the counter of a context *)
Lemma all_count t s k o v x : All t s -> pcs s k = QGen o v -> objs s o = Some x -> is_ctx (knd x) -> All t (w_obj s o (mkObj (knd x) (ogen x) (own x) (S (cnt x)))).
Proof.
  intros A P O K. set (s' := w_obj s o (mkObj (knd x) (ogen x) (own x) (S (cnt x)))). assert (M : calm s s') by (apply calm_obj; rewrite O; now split). assert (N0 : forall y : obs, In y [] -> mute y) by (intros y []).
  constructor.
  - apply gi_flags; [exact O|apply A].
  - rewrite <- (app_nil_r t). apply ci_calm with (s := s); trivial; [intros y []|apply A].
  - intro X. rewrite <- (app_nil_r t). apply ei_calm with (s := s); trivial; [apply A|now apply (xE _ _ A)].
  - intro X. rewrite <- (app_nil_r t). apply ai_calm with (s := s); trivial. now apply (xA _ _ A).
  - intro X. pose proof (xI _ _ A X) as I. pose proof (xE _ _ A X) as E.
    assert (NK : forall j w id, call_of (pcs s j) = Some (o, w) -> id_of (pcs s j) = Some id -> False).
    { intros j w id H1 H2. assert (j = k) by (apply (eOne _ _ E j k o w o v); trivial; now rewrite P). subst j. rewrite P in H2. discriminate. }
    constructor; cbn.
    + intros p Op. other p o N; [discriminate|now apply I].
    + intros p y Op Ky. other p o N; [injection Op as <-; contradiction|now apply (iMul _ _ I)].
    + intros p y Op Ky. other p o N; [|now apply (iCtx _ _ I)]. injection Op as <-. cbn. destruct (iCtx _ _ I o x O K) as (Y1 & Y2 & Y3). split; [exact Y1|]. split; [intros m Hm; specialize (Y2 m Hm); lia|].
      intros j w id H1 H2. exfalso. exact (NK j w id H1 H2).
  - intros X F. rewrite <- (app_nil_r t). apply bi_calm with (s := s); trivial; [intros y []|now apply (xB _ _ A)].
Qed.
(** the generator is there *)
Lemma all_alloc t s k o v x u g x2 s2 : All t s -> pcs s k = QGen o v -> objs s o = Some x -> (exclusive t -> is_ctx (knd x) -> 1 <= cnt x /\ forall m, In m (ids o t) -> m < cnt x) ->
  need o x s = (u, (g, x2, s2)) -> All (t ++ u) (w_pc s2 k (QAlloc o v g (cnt x2))).
Proof.
  intros A P O Hc Nd. destruct (need_inv t s o x u g x2 s2 (xG _ _ A) O Nd) as (G & M & V & X1 & X2 & X3 & X4 & U).
  assert (A2 : All (t ++ u) s2) by (now apply all_calm with (s := s)). assert (P2 : pcs s2 k = QGen o v) by (now rewrite (mPcs _ _ M)).
  constructor.
  - apply gi_same with (s := s2); trivial.
  - apply ci_next; [now rewrite P2| |apply A2]. cbn. intros o' v' g' H1 H2. injection H1 as <- <-. injection H2 as <-. now exists x2.
  - intro X. apply ei_next with (s := s2) (k := k) (p := QAlloc o v g (cnt x2)); try reflexivity; [now rewrite P2|now apply (xE _ _ A2)].
  - intro X. pose proof (xA _ _ A2 X) as B. assert (T : forall j p, slot_of (upd (pcs s2) k (QAlloc o v g (cnt x2)) j) = Some p -> slot_of (pcs s2 j) = Some p) by (intros j p; other j k N; trivial; discriminate).
    constructor; cbn; try apply B.
    + intros a i [H|[j H]]; apply B; [now left|right; exists j; now apply T].
    + intros j p H. apply T in H. now apply (aFree _ _ B j p).
    + intros j j' p H1 H2. apply T in H1. apply T in H2. now apply (aDist _ _ B j j' p).
    + intros j p w h id a i H. other j k N; [discriminate|now apply (aInc _ _ B j p w h id a i)].
    + intros j p w h id H. other j k N; [discriminate|now apply (aSlot _ _ B j p w h id)].
  - intro X. pose proof (xI _ _ A2 X) as I. pose proof (xE _ _ A2 X) as E. assert (Ids : ids o (t ++ u) = ids o t) by (rewrite ids_app, (mute_ids o u); [apply app_nil_r|intros y Y; left; now apply U]).
    constructor; cbn.
    + apply I.
    + intros p y Op Ky. destruct (iMul _ _ I p y Op Ky) as [Y Z]. split; [exact Y|]. intros j w id. other j k N; [|apply Z]. intros H1 H2. injection H1 as <- <-. injection H2 as <-. congruence.
    + intros p y Op Ky. destruct (iCtx _ _ I p y Op Ky) as (Y & Y' & Z). split; [exact Y|]. split; [exact Y'|]. intros j w id. other j k N; [|apply Z]. intros H1 H2. injection H1 as <- <-. injection H2 as <-.
      assert (y = x2) by congruence. subst y. rewrite X3 in Ky. destruct (Hc (exclusive_app _ _ X) Ky) as [C1 C2]. rewrite Ids, X4. split; [reflexivity|]. split; [exact C1|exact C2].
  - intros X F. pose proof (xB _ _ A2 X F) as B. constructor; cbn.
    + intro h. destruct (bPend _ _ B h) as [H|(j & p & w & id & a & i & H)]; [now left|]. right. exists j, p, w, id, a, i. other j k N; [congruence|exact H].
    + intros j p w h id a i H. other j k N; [discriminate|now apply (bTake _ _ B j p w h id a i)].
    + intros j p w h id a i b H. other j k N; [discriminate|now apply (bRet _ _ B j p w h id a i b)].
    + apply B.
Qed.
Lemma all_gen t s k o v u s' : All t s -> pcs s k = QGen o v -> step_go s k = (u, s') -> All (t ++ u) s'.
Proof.
  intros A P E. unfold step_go in E. rewrite P in E. destruct (objs s o) as [x|] eqn:O; [|injection E as <- <-; now rewrite app_nil_r].
  assert (Y1 : ~ is_ctx (knd x) -> (let '(t0, (g, x0, s0)) := need o x s in (t0, w_pc s0 k (QAlloc o v g (cnt x0)))) = (u, s') -> All (t ++ u) s').
  { intros K Z. destruct (need o x s) as [u0 [[g x2] s2]] eqn:Nd. injection Z as <- <-. eapply all_alloc; try eassumption. intros _ K'. contradiction. }
  assert (Y2 : is_ctx (knd x) -> (let x0 := mkObj (knd x) (ogen x) (own x) (S (cnt x)) in let '(t0, (g, x1, s0)) := need o x0 (w_obj s o x0) in (t0, w_pc s0 k (QAlloc o v g (cnt x1)))) = (u, s') -> All (t ++ u) s').
  { intros K Z. cbn zeta in Z. destruct (need o _ _) as [u0 [[g x2] s2]] eqn:Nd. injection Z as <- <-. pose proof (all_count t s k o v x A P O K) as A1. eapply all_alloc; [exact A1|exact P|cbn; apply upd_same| |exact Nd].
    intros X _. cbn. destruct (iCtx _ _ (xI _ _ A X) o x O K) as (_ & H & _). split; [lia|]. intros m Hm. specialize (H m Hm). lia. }
  destruct (knd x) eqn:K; try (apply Y2; [exact Logic.I|exact E]); apply Y1; [intros []|exact E|intros []|exact E].
Qed.

(** ** Inside Request of a generator *)
Definition same_gen_rel (s s' : st) : Prop := forall g, rel (gens s' g) = rel (gens s g).
(** what every such step keeps *)
Lemma keep t s s' k p : All t s -> ngen s' = ngen s -> cache s' = cache s -> objs s' = objs s -> pcs s' = upd (pcs s) k p -> same_gen_rel s s' ->
  (forall g, gen_of (pcs s k) <> Some g -> gens s' g = gens s g) -> call_of p = call_of (pcs s k) -> gen_of p = gen_of (pcs s k) -> id_of p = id_of (pcs s k) ->
  (exclusive t -> AInv t s') -> (exclusive t -> no_failure t -> BInv t s') -> All t s'.
Proof.
  intros A E1 E2 E3 E4 E5 E6 E7 E8 E9 HA HB. pose proof (xC _ _ A) as C. pose proof (xG _ _ A) as G.
  constructor; try assumption.
  - apply gi_same with (s := s); trivial. intros g L. apply E6. intro X. destruct (in_call _ _ _ X) as (o & v & Y). pose proof (call_got _ _ _ _ _ _ G C Y X) as Z. apply given_in in Z. destruct (gNew _ _ G g L) as (_ & W & _). rewrite W in Z. destruct Z.
  - assert (CN : CInv t (w_pc s k p)) by (apply ci_next; trivial; intros o v g; rewrite E7, E8; apply C). constructor.
    + intro j. rewrite E4. apply (cCur _ _ CN).
    + rewrite E3, E4. apply (cObj _ _ CN).
    + rewrite E3, E4. apply (cGen _ _ CN).
  - intro X. apply ei_next with (s := s) (k := k) (p := p); trivial. now apply (xE _ _ A).
  - intro X. apply ii_next with (s := s) (k := k) (p := p); trivial. now apply (xI _ _ A).
Qed.
Lemma all_alloced t s k o v g id : All t s -> pcs s k = QAlloc o v g id -> arr (gens s g) <> None -> All t (w_pc s k (QSlot o v g id)).
Proof.
  intros A P N0. apply keep with (s := s) (k := k) (p := QSlot o v g id); trivial; try (rewrite P; reflexivity).
  - intro h. reflexivity.
  - intro X. pose proof (xA _ _ A X) as B. assert (T : forall j p, slot_of (upd (pcs s) k (QSlot o v g id) j) = Some p -> slot_of (pcs s j) = Some p) by (intros j p; other j k N; trivial; discriminate).
    constructor; cbn; try apply B.
    + intros a i [H|[j H]]; apply B; [now left|right; exists j; now apply T].
    + intros j p H. apply T in H. now apply (aFree _ _ B j p).
    + intros j j' p H1 H2. apply T in H1. apply T in H2. now apply (aDist _ _ B j j' p).
    + intros j p w h i' a i H. other j k N; [discriminate|now apply (aInc _ _ B j p w h i' a i)].
    + intros j p w h i' H. other j k N; [injection H as <- <- <- <-; exact N0|now apply (aSlot _ _ B j p w h i')].
  - intros X F. pose proof (xB _ _ A X F) as B. constructor; cbn; try apply B.
    + intro h. destruct (bPend _ _ B h) as [H|(j & p & w & i' & a & i & H)]; [now left|]. right. exists j, p, w, i', a, i. other j k N; [congruence|exact H].
    + intros j p w h i' a i H. other j k N; [discriminate|now apply (bTake _ _ B j p w h i' a i)].
    + intros j p w h i' a i b H. other j k N; [discriminate|now apply (bRet _ _ B j p w h i' a i b)].
Qed.
(** what the other goroutines hold is not touched *)
Lemma foreign t s k g : All t s -> exclusive t -> gen_of (pcs s k) = Some g -> forall j, j <> k -> gen_of (pcs s j) <> Some g.
Proof. intros A X H j N H'. apply N. eapply gen_one; [apply A|apply A|now apply (xE _ _ A)|exact H'|exact H]. Qed.
(** a new array *)
Lemma all_array t s k o v g id : All t s -> pcs s k = QAlloc o v g id -> arr (gens s g) = None ->
  All t (w_pc (w_gen (w_narr s (S (narr s))) g (mkGen (Some (narr s)) (idx (gens s g)) (pend (gens s g)) (rel (gens s g)))) k (QSlot o v g id)).
Proof.
  intros A P N0. assert (Pg : gen_of (pcs s k) = Some g) by (now rewrite P). apply keep with (s := s) (k := k) (p := QSlot o v g id); trivial; try (rewrite P; reflexivity).
  - intro h. cbn. now other h g N.
  - intros h H. cbn. apply upd_other. congruence.
  - intro X. pose proof (xA _ _ A X) as B. pose proof (foreign t s k g A X Pg) as Fo. assert (T : forall j p, slot_of (upd (pcs s) k (QSlot o v g id) j) = Some p -> slot_of (pcs s j) = Some p) by (intros j p; other j k N; trivial; discriminate).
    constructor; cbn.
    + intros h a. other h g N; [intro H; injection H as <-; lia|]. intro H. apply (aLt _ _ B) in H. lia.
    + intros h h' a. other h g N; other h' g N'; trivial; intros H1 H2.
      * injection H1 as <-. apply (aLt _ _ B) in H2. lia.
      * injection H2 as <-. apply (aLt _ _ B) in H1. lia.
      * now apply (aInj _ _ B h h' a).
    + intros a i H. assert (H' : In (a, i) (slots t) \/ (exists k, slot_of (pcs s k) = Some (a, i))) by (destruct H as [H|[j H]]; [now left|right; exists j; now apply T]).
      destruct (aUsed _ _ B a i H') as [Y Z]. split; [lia|]. intro h. other h g N; [intro W; injection W as <-; lia|apply Z].
    + apply B.
    + intros j p H. apply T in H. now apply (aFree _ _ B j p).
    + intros j j' p H1 H2. apply T in H1. apply T in H2. now apply (aDist _ _ B j j' p).
    + intros j p w h i' a i H. other j k N; [discriminate|]. assert (h <> g) by (intros ->; apply (Fo j N); now rewrite H). rewrite upd_other by assumption. now apply (aInc _ _ B j p w h i' a i).
    + intros j p w h i' H. other h g Nh; [discriminate|]. other j k N; [congruence|now apply (aSlot _ _ B j p w h i')].
    + intro h. other h g N; cbn; apply B.
  - intros X F. pose proof (xB _ _ A X F) as B. assert (Pe : forall h, pend (upd (gens s) g (mkGen (Some (narr s)) (idx (gens s g)) (pend (gens s g)) (rel (gens s g))) h) = pend (gens s h)) by (intro h; now other h g N).
    constructor; cbn; try apply B.
    + intro h. rewrite Pe. destruct (bPend _ _ B h) as [H|(j & p & w & i' & a & i & H)]; [now left|]. right. exists j, p, w, i', a, i. other j k N; [congruence|exact H].
    + intros j p w h i' a i H. rewrite Pe. other j k N; [discriminate|now apply (bTake _ _ B j p w h i' a i)].
    + intros j p w h i' a i b H. other j k N; [discriminate|now apply (bRet _ _ B j p w h i' a i b)].
Qed.
(** the slot *)
Lemma all_slot t s k o v g id a : All t s -> pcs s k = QSlot o v g id -> arr (gens s g) = Some a -> All t (w_pc s k (QInc o v g id a (idx (gens s g)))).
Proof.
  intros A P Ha. apply keep with (s := s) (k := k) (p := QInc o v g id a (idx (gens s g))); trivial; try (rewrite P; reflexivity).
  - intro h. reflexivity.
  - intro X. pose proof (xA _ _ A X) as B. assert (T : forall j p, slot_of (upd (pcs s) k (QInc o v g id a (idx (gens s g))) j) = Some p -> slot_of (pcs s j) = Some p) by (intros j p; other j k N; trivial; discriminate).
    constructor; cbn; try apply B.
    + intros c i [H|[j H]]; apply B; [now left|right; exists j; now apply T].
    + intros j p H. apply T in H. now apply (aFree _ _ B j p).
    + intros j j' p H1 H2. apply T in H1. apply T in H2. now apply (aDist _ _ B j j' p).
    + intros j p w h i' c i H. other j k N; [injection H as <- <- <- <- <- <-; now split|now apply (aInc _ _ B j p w h i' c i)].
    + intros j p w h i' H. other j k N; [discriminate|now apply (aSlot _ _ B j p w h i')].
  - intros X F. pose proof (xB _ _ A X F) as B. constructor; cbn; try apply B.
    + intro h. destruct (bPend _ _ B h) as [H|(j & p & w & i' & c & i & H)]; [now left|]. right. exists j, p, w, i', c, i. other j k N; [congruence|exact H].
    + intros j p w h i' c i H. other j k N; [discriminate|now apply (bTake _ _ B j p w h i' c i)].
    + intros j p w h i' c i b H. other j k N; [discriminate|now apply (bRet _ _ B j p w h i' c i b)].
Qed.
Definition next_gen (x : gen) : gen := if S (idx x) =? 32 then mkGen None 0 (pend x) (rel x) else mkGen (arr x) (S (idx x)) (pend x) (rel x).
Lemma next_idx x : idx x < 32 -> idx (next_gen x) < 32.
Proof. unfold next_gen. destruct (Nat.eqb_spec (S (idx x)) 32); cbn; lia. Qed.
Lemma next_arr x a : arr (next_gen x) = Some a -> arr x = Some a /\ idx (next_gen x) = S (idx x).
Proof. unfold next_gen. destruct (S (idx x) =? 32); cbn; [discriminate|now split]. Qed.
(** the slot is taken *)
Lemma all_inc t s k o v g id a i : All t s -> pcs s k = QInc o v g id a i -> All t (w_pc (w_gen s g (next_gen (gens s g))) k (QWrite o v g id a i)).
Proof.
  intros A P. assert (Pg : gen_of (pcs s k) = Some g) by (now rewrite P).
  assert (Rl : rel (next_gen (gens s g)) = rel (gens s g)) by (unfold next_gen; now destruct (_ =? 32)). assert (Pd : pend (next_gen (gens s g)) = pend (gens s g)) by (unfold next_gen; now destruct (_ =? 32)).
  apply keep with (s := s) (k := k) (p := QWrite o v g id a i); trivial; try (rewrite P; reflexivity).
  - intro h. cbn. now other h g N.
  - intros h H. cbn. apply upd_other. congruence.
  - intro X. pose proof (xA _ _ A X) as B. pose proof (foreign t s k g A X Pg) as Fo. destruct (aInc _ _ B k o v g id a i P) as [Ha Hi].
    assert (Ng : forall c, arr (upd (gens s) g (next_gen (gens s g)) c) <> None -> arr (upd (gens s) g (next_gen (gens s g)) c) = arr (gens s c) /\ idx (gens s c) <= idx (upd (gens s) g (next_gen (gens s g)) c)).
    { intros c Hc. other c g N; [|now split]. destruct (arr (next_gen (gens s g))) eqn:E; [|congruence]. apply next_arr in E. destruct E as [E1 E2]. rewrite E1, E2. split; [reflexivity|lia]. }
    assert (Fr : ~ In (a, i) (slots t) /\ forall j, slot_of (pcs s j) <> Some (a, i)).
    { split; [intro H|intros j H]; (assert (U : In (a, i) (slots t) \/ (exists k, slot_of (pcs s k) = Some (a, i))) by (first [now left|right; now exists j]); destruct (aUsed _ _ B a i U) as [_ U']; specialize (U' g Ha); lia). }
    destruct Fr as [Fr1 Fr2].
    constructor; cbn.
    + intros h c H. apply (aLt _ _ B h). destruct (Ng h) as [W _]; [congruence|congruence].
    + intros h h' c H1 H2. apply (aInj _ _ B h h' c); [destruct (Ng h) as [W _]|destruct (Ng h') as [W _]]; congruence.
    + intros c m H. assert (H' : (c, m) = (a, i) \/ (In (c, m) (slots t) \/ (exists k, slot_of (pcs s k) = Some (c, m)))).
      { destruct H as [H|[j H]]; [right; now left|]. other j k N; [left; cbn in H; congruence|right; right; now exists j]. }
      destruct H' as [H'|H'].
      * injection H' as -> ->. split; [now apply (aLt _ _ B g)|]. intros h Hh. assert (h = g) by (destruct (Ng h) as [W _]; [congruence|apply (aInj _ _ B h g a); congruence]). subst h. rewrite upd_same in *. apply next_arr in Hh. lia.
      * destruct (aUsed _ _ B c m H') as [Y Z]. split; [exact Y|]. intros h Hh. destruct (Ng h) as [W W']; [congruence|]. specialize (Z h ltac:(congruence)). lia.
    + apply B.
    + intros j p H. other j k N; [cbn in H; injection H as <-; exact Fr1|now apply (aFree _ _ B j p)].
    + intros j j' p H1 H2. other j k N; other j' k N'; trivial; cbn in *; [injection H1 as <-; now apply Fr2 in H2|injection H2 as <-; now apply Fr2 in H1|now apply (aDist _ _ B j j' p)].
    + intros j p w h i' c m H. other j k N; [discriminate|]. assert (h <> g) by (intros ->; apply (Fo j N); now rewrite H). rewrite upd_other by assumption. now apply (aInc _ _ B j p w h i' c m).
    + intros j p w h i' H. other j k N; [discriminate|]. assert (h <> g) by (intros ->; apply (Fo j N); now rewrite H). rewrite upd_other by assumption. now apply (aSlot _ _ B j p w h i').
    + intro h. other h g N; [apply next_idx|]; apply B.
  - intros X F. pose proof (xB _ _ A X F) as B. assert (Pe : forall h, pend (upd (gens s) g (next_gen (gens s g)) h) = pend (gens s h)) by (intro h; now other h g N).
    constructor; cbn; try apply B.
    + intro h. rewrite Pe. destruct (bPend _ _ B h) as [H|(j & p & w & i' & c & m & H)]; [now left|]. right. exists j, p, w, i', c, m. other j k N; [congruence|exact H].
    + intros j p w h i' c m H. rewrite Pe. other j k N; [discriminate|now apply (bTake _ _ B j p w h i' c m)].
    + intros j p w h i' c m b H. other j k N; [discriminate|now apply (bRet _ _ B j p w h i' c m b)].
Qed.
(** arrays, when only the place of a goroutine or the pending bytes change *)
Lemma ai_pend t s s' k p : AInv t s -> narr s' = narr s -> pcs s' = upd (pcs s) k p -> (forall g, arr (gens s' g) = arr (gens s g)) -> (forall g, idx (gens s' g) = idx (gens s g)) ->
  slot_of p = slot_of (pcs s k) -> (forall o v g id a i, p <> QInc o v g id a i) -> (forall o v g id, p <> QSlot o v g id) -> AInv t s'.
Proof.
  intros B E1 E2 E3 E4 E5 N1 N2. assert (T : forall j, slot_of (pcs s' j) = slot_of (pcs s j)) by (intro j; rewrite E2; other j k N; congruence).
  constructor; rewrite ?E1; try apply B.
  - intros g a. rewrite E3. apply B.
  - intros g g' a. rewrite !E3. apply B.
  - intros a i H. assert (H' : In (a, i) (slots t) \/ (exists k, slot_of (pcs s k) = Some (a, i))) by (destruct H as [H|[j H]]; [now left|right; exists j; now rewrite <- T]).
    destruct (aUsed _ _ B a i H') as [Y Z]. split; [exact Y|]. intro g. rewrite E3, E4. apply Z.
  - intros j q. rewrite T. apply B.
  - intros j j' q. rewrite !T. apply B.
  - intros j o v g id a i H. rewrite E2 in H. rewrite E3, E4. other j k N; [now apply N1 in H|now apply (aInc _ _ B j o v g id a i)].
  - intros j o v g id H. rewrite E2 in H. rewrite E3. other j k N; [now apply N2 in H|now apply (aSlot _ _ B j o v g id)].
  - intro g. rewrite E4. apply B.
Qed.
Lemma all_body t s k o g id a i b : All t s -> pcs s k = QWrite o (VBody b) g id a i -> All t (w_pc s k (QRet o (VBody b) g id a i b)).
Proof.
  intros A P. apply keep with (s := s) (k := k) (p := QRet o (VBody b) g id a i b); trivial; try (rewrite P; reflexivity).
  - intro h. reflexivity.
  - intro X. apply ai_pend with (s := s) (k := k) (p := QRet o (VBody b) g id a i b); trivial; try discriminate; [now apply (xA _ _ A)|now rewrite P].
  - intros X F. pose proof (xB _ _ A X F) as B. constructor; cbn; try apply B.
    + intro h. destruct (bPend _ _ B h) as [H|(j & p & w & i' & c & m & H)]; [now left|]. right. exists j, p, w, i', c, m. other j k N; [congruence|exact H].
    + intros j p w h i' c m H. other j k N; [discriminate|now apply (bTake _ _ B j p w h i' c m)].
    + intros j p w h i' c m d H. other j k N; [injection H as <- <- <- <- <- <- <-; reflexivity|now apply (bRet _ _ B j p w h i' c m d)].
Qed.
Lemma all_write t s k o g id a i b : All t s -> pcs s k = QWrite o (VEnc b false) g id a i ->
  All t (w_pc (w_gen s g (mkGen (arr (gens s g)) (idx (gens s g)) (pend (gens s g) ++ b) (rel (gens s g)))) k (QTake o (VEnc b false) g id a i)).
Proof.
  intros A P. assert (Pg : gen_of (pcs s k) = Some g) by (now rewrite P). apply keep with (s := s) (k := k) (p := QTake o (VEnc b false) g id a i); trivial; try (rewrite P; reflexivity).
  - intro h. cbn. now other h g N.
  - intros h H. cbn. apply upd_other. congruence.
  - intro X. apply ai_pend with (s := s) (k := k) (p := QTake o (VEnc b false) g id a i); trivial; try discriminate; try (intro h; cbn; now other h g N); [now apply (xA _ _ A)|now rewrite P].
  - intros X F. pose proof (xB _ _ A X F) as B. pose proof (foreign t s k g A X Pg) as Fo.
    assert (Pe : pend (gens s g) = []).
    { destruct (bPend _ _ B g) as [H|(j & p & w & i' & c & m & H)]; [exact H|]. destruct (Nat.eq_dec j k) as [->|N]; [congruence|]. exfalso. apply (Fo j N). now rewrite H. }
    constructor; cbn; try apply B.
    + intro h. other h g Nh; [right; exists k, o, (VEnc b false), id, a, i; now rewrite upd_same|].
      destruct (bPend _ _ B h) as [H|(j & p & w & i' & c & m & H)]; [now left|]. right. exists j, p, w, i', c, m. other j k N; [congruence|exact H].
    + intros j p w h i' c m H. other j k N; [injection H as <- <- <- <- <- <-; rewrite upd_same; cbn; now rewrite Pe|].
      assert (h <> g) by (intros ->; apply (Fo j N); now rewrite H). rewrite upd_other by assumption. now apply (bTake _ _ B j p w h i' c m).
    + intros j p w h i' c m d H. other j k N; [discriminate|now apply (bRet _ _ B j p w h i' c m d)].
Qed.
Lemma all_take t s k o v g id a i : All t s -> pcs s k = QTake o v g id a i ->
  All t (w_pc (w_gen s g (mkGen (arr (gens s g)) (idx (gens s g)) [] (rel (gens s g)))) k (QRet o v g id a i (pend (gens s g)))).
Proof.
  intros A P. assert (Pg : gen_of (pcs s k) = Some g) by (now rewrite P). apply keep with (s := s) (k := k) (p := QRet o v g id a i (pend (gens s g))); trivial; try (rewrite P; reflexivity).
  - intro h. cbn. now other h g N.
  - intros h H. cbn. apply upd_other. congruence.
  - intro X. apply ai_pend with (s := s) (k := k) (p := QRet o v g id a i (pend (gens s g))); trivial; try discriminate; try (intro h; cbn; now other h g N); [now apply (xA _ _ A)|now rewrite P].
  - intros X F. pose proof (xB _ _ A X F) as B. pose proof (foreign t s k g A X Pg) as Fo.
    constructor; cbn; try apply B.
    + intro h. other h g Nh; [now left|]. destruct (bPend _ _ B h) as [H|(j & p & w & i' & c & m & H)]; [now left|]. right. exists j, p, w, i', c, m. other j k N; [congruence|exact H].
    + intros j p w h i' c m H. other j k N; [discriminate|]. assert (h <> g) by (intros ->; apply (Fo j N); now rewrite H). rewrite upd_other by assumption. now apply (bTake _ _ B j p w h i' c m).
    + intros j p w h i' c m d H. other j k N; [injection H as <- <- <- <- <- <- <-; now apply (bTake _ _ B k o v g id a i)|now apply (bRet _ _ B j p w h i' c m d)].
Qed.

(** ** The end of a call *)
Lemma cur_in t k o v : cur t k = Some (o, v) -> In (OCall k o v) t.
Proof.
  induction t as [|x t IH] using rev_ind; [discriminate|]. rewrite cur_snoc, in_snoc. destruct x; try (left; now apply IH).
  - destruct (Nat.eqb_spec k0 k) as [->|N]; [|left; now apply IH]. intro E. injection E as <- <-. now right.
  - destruct (Nat.eqb_spec k0 k) as [->|N]; [discriminate|left; now apply IH].
  - destruct (Nat.eqb_spec k0 k) as [->|N]; [discriminate|left; now apply IH].
Qed.
Lemma all_fail t s s' k o v : All t s -> call_of (pcs s k) = Some (o, v) -> ngen s' = ngen s -> narr s' = narr s -> cache s' = cache s -> objs s' = objs s -> pcs s' = upd (pcs s) k PIdle ->
  (forall g, rel (gens s' g) = rel (gens s g) /\ arr (gens s' g) = arr (gens s g) /\ idx (gens s' g) = idx (gens s g)) -> (forall g, ngen s <= g -> gens s' g = gens s g) ->
  (gens s' = gens s /\ (forall o v g id a i, pcs s k <> QTake o v g id a i)) \/ (exists b, v = VEnc b true) -> All (t ++ [OFail k o]) s'.
Proof.
  intros A P E1 E2 E3 E4 E5 E6 E7 E8. pose proof (xC _ _ A) as C.
  constructor.
  - apply gi_obs; [exact Logic.I|]. apply gi_same with (s := s); trivial; [intro g; apply E6|apply A].
  - assert (CN : CInv (t ++ [OFail k o]) (w_pc s k PIdle)) by (apply ci_end; trivial). constructor.
    + intro j. rewrite E5. apply (cCur _ _ CN).
    + rewrite E4, E5. apply (cObj _ _ CN).
    + rewrite E4, E5. apply (cGen _ _ CN).
  - intro X. apply ei_end with (s := s) (k := k); [discriminate|now left|exact E5|]. apply (xE _ _ A). now apply exclusive_app in X.
  - intro X. pose proof (xA _ _ A (exclusive_app _ _ X)) as B. assert (S : slots (t ++ [OFail k o]) = slots t) by (rewrite slots_app; apply app_nil_r).
    assert (T : forall j p, slot_of (pcs s' j) = Some p -> slot_of (pcs s j) = Some p) by (intros j p; rewrite E5; other j k N; trivial; discriminate).
    assert (Ea : forall g, arr (gens s' g) = arr (gens s g)) by (intro; apply E6). assert (Ei : forall g, idx (gens s' g) = idx (gens s g)) by (intro; apply E6).
    constructor; rewrite ?S, ?E2; try apply B.
    + intros g a. rewrite Ea. apply B.
    + intros g g' a. rewrite !Ea. apply B.
    + intros a i H. assert (H' : In (a, i) (slots t) \/ (exists k, slot_of (pcs s k) = Some (a, i))) by (destruct H as [H|[j H]]; [now left|right; exists j; now apply T]).
      destruct (aUsed _ _ B a i H') as [Y Z]. split; [exact Y|]. intro g. rewrite Ea, Ei. apply Z.
    + intros j p H. apply T in H. now apply (aFree _ _ B j p).
    + intros j j' p H1 H2. apply T in H1. apply T in H2. now apply (aDist _ _ B j j' p).
    + intros j p w g id a i H. rewrite E5 in H. rewrite Ea, Ei. other j k N; [discriminate|now apply (aInc _ _ B j p w g id a i)].
    + intros j p w g id H. rewrite E5 in H. rewrite Ea. other j k N; [discriminate|now apply (aSlot _ _ B j p w g id)].
    + intro g. rewrite Ei. apply B.
  - intro X. apply ii_end with (s := s) (k := k); trivial. apply (xI _ _ A). now apply exclusive_app in X.
  - intros X F. pose proof (xB _ _ A (exclusive_app _ _ X) (failure_app _ _ F)) as B.
    destruct E8 as [[E8 E9]|[b ->]].
    + constructor; rewrite ?E8, ?E5.
      * intro g. destruct (bPend _ _ B g) as [H|(j & p & w & i' & c & m & H)]; [now left|]. right. exists j, p, w, i', c, m. other j k N; [now apply E9 in H|exact H].
      * intros j p w h i' c m H. other j k N; [discriminate|now apply (bTake _ _ B j p w h i' c m)].
      * intros j p w h i' c m d H. other j k N; [discriminate|now apply (bRet _ _ B j p w h i' c m d)].
      * apply tr_app; [intros y [<-|[]]; exact Logic.I|apply B].
    + exfalso. rewrite <- (cCur _ _ C) in P. apply cur_in in P. apply (F k o b). apply in_snoc. now left.
Qed.
(** the request is returned *)
Definition bump (s : st) (o : nat) : st :=
  match objs s o with
  | Some x => match knd x with KMul | KSub _ => w_obj s o (mkObj (knd x) (ogen x) (own x) (S (cnt x))) | _ => s end
  | None => s
  end.
Lemma bump_same s o : gens (bump s o) = gens s /\ ngen (bump s o) = ngen s /\ narr (bump s o) = narr s /\ cache (bump s o) = cache s /\ pcs (bump s o) = pcs s.
Proof. unfold bump. destruct (objs s o); [destruct (knd _)|]; repeat split. Qed.
Lemma bump_objs s o : objs (bump s o) = objs s \/ (exists y, objs s o = Some y /\ ~ is_ctx (knd y) /\ objs (bump s o) = upd (objs s) o (Some (mkObj (knd y) (ogen y) (own y) (S (cnt y))))).
Proof. unfold bump. destruct (objs s o) as [x|] eqn:O; [|now left]. destruct (knd x) eqn:K; try (now left); right; exists x; rewrite K; repeat split; trivial; cbn; tauto. Qed.
Lemma bump_calm s o : calm s (bump s o).
Proof.
  destruct (bump_same s o) as (E1 & E2 & E3 & E4 & E5). constructor; rewrite ?E1; trivial. destruct (bump_objs s o) as [E|(y & Y & _ & E)]; rewrite E; intros p x H; [now exists x|]. other p o N; [|now exists x]. rewrite Y in H. injection H as <-. eexists. split; [reflexivity|]. now split.
Qed.
Lemma all_ret t s k o v g id a i b : All t s -> pcs s k = QRet o v g id a i b -> All (t ++ [OReq k o id a i b]) (w_pc (bump s o) k PIdle).
Proof.
  intros A P. pose proof (xC _ _ A) as C. destruct (bump_same s o) as (E1 & E2 & E3 & E4 & E5). pose proof (bump_objs s o) as E6. pose proof (bump_calm s o) as M.
  assert (Pc : call_of (pcs s k) = Some (o, v)) by (now rewrite P).
  constructor.
  - apply gi_obs; [exact Logic.I|]. apply gi_same with (s := bump s o); trivial. unfold bump. destruct (objs s o) as [x|] eqn:O; [|apply A]. destruct (knd x) eqn:K; try apply A; rewrite <- K; apply gi_flags; trivial; apply A.
  - apply ci_end; [|reflexivity]. rewrite <- (app_nil_r t). apply ci_calm with (s := s); trivial. intros y [].
  - intro X. apply ei_end with (s := s) (k := k); [discriminate| |cbn; now rewrite E5|apply (xE _ _ A); now apply exclusive_app in X]. destruct E6 as [E|(y & Y & _ & E)]; [now left|]. right. exists o, y, (S (cnt y)). now split.
  - intro X. pose proof (xA _ _ A (exclusive_app _ _ X)) as B. assert (S : slots (t ++ [OReq k o id a i b]) = slots t ++ [(a, i)]) by (rewrite slots_app; reflexivity).
    assert (T : forall j p, slot_of (upd (pcs s) k PIdle j) = Some p -> j <> k /\ slot_of (pcs s j) = Some p) by (intros j p; other j k N; [discriminate|now split]).
    assert (Sk : slot_of (pcs s k) = Some (a, i)) by (now rewrite P).
    constructor; rewrite ?S; cbn; rewrite ?E1, ?E3, ?E5; try apply B.
    + intros c m H. apply (aUsed _ _ B c m). rewrite in_snoc in H. destruct H as [[H|H]|[j H]]; [now left|right; exists k; congruence|right; exists j; now apply T].
    + apply nodup_snoc; [apply B|now apply (aFree _ _ B k)].
    + intros j p H. apply T in H. destruct H as [N H]. rewrite in_snoc. intros [Y|Y]; [now apply (aFree _ _ B j p)|]. subst p. apply N. now apply (aDist _ _ B j k (a, i)).
    + intros j j' p H1 H2. apply T in H1. apply T in H2. now apply (aDist _ _ B j j' p).
    + intros j p w h i' c m H. other j k N; [discriminate|now apply (aInc _ _ B j p w h i' c m)].
    + intros j p w h i' H. other j k N; [discriminate|now apply (aSlot _ _ B j p w h i')].
  - intro X. pose proof (xI _ _ A (exclusive_app _ _ X)) as I. pose proof (xE _ _ A (exclusive_app _ _ X)) as Ei.
    assert (S : forall p, ids p (t ++ [OReq k o id a i b]) = if o =? p then ids p t ++ [id] else ids p t) by (intro p; rewrite ids_app; cbn; destruct (o =? p); [reflexivity|apply app_nil_r]).
    assert (NK : forall j w, call_of (upd (pcs s) k PIdle j) <> Some (o, w)).
    { intros j w H. other j k N; [discriminate|]. apply N. now apply (eOne _ _ Ei j k o w o v). }
    destruct (objs s o) as [x|] eqn:O; [|now apply (cObj _ _ C k o v) in O].
    assert (Ob : forall p y, objs (bump s o) p = Some y -> p <> o -> objs s p = Some y) by (intros p y H N; destruct E6 as [E|(z & Z & _ & E)]; rewrite E in H; [exact H|now rewrite upd_other in H by exact N]).
    constructor; cbn; rewrite ?E5.
    + intros p Op. rewrite S. destruct (Nat.eqb_spec o p) as [<-|N].
      * exfalso. destruct E6 as [E|(z & Z & _ & E)]; rewrite E in Op; [congruence|]. rewrite upd_same in Op. discriminate.
      * apply (iNone _ _ I). destruct E6 as [E|(z & Z & _ & E)]; rewrite E in Op; [exact Op|]. now rewrite upd_other in Op by congruence.
    + intros p y Op Ky. rewrite S. destruct (Nat.eqb_spec o p) as [<-|N].
      * split; [|intros j w i' H; now apply NK in H]. unfold bump in Op. rewrite O in Op. destruct (knd x) eqn:K; cbn in Op; try (exfalso; apply Ky; assert (y = x) by congruence; subst y; rewrite K; exact Logic.I).
        all: rewrite upd_same in Op; injection Op as <-; assert (Kx : ~ is_ctx (knd x)) by (rewrite K; intros []); destruct (iMul _ _ I o x O Kx) as [Y Z]; specialize (Z k v id Pc); rewrite P in Z; specialize (Z eq_refl); cbn [cnt]; rewrite Y, Z, seq_S; reflexivity.
      * apply Ob in Op; [|congruence]. destruct (iMul _ _ I p y Op Ky) as [Y Z]. split; [exact Y|]. intros j w i'. other j k Nj; [discriminate|apply Z].
    + intros p y Op Ky. rewrite S. destruct (Nat.eqb_spec o p) as [<-|N].
      * assert (y = x) by (unfold bump in Op; rewrite O in Op; destruct (knd x) eqn:K; cbn in Op; try congruence; rewrite upd_same in Op; injection Op as <-; destruct Ky). subst y.
        destruct (iCtx _ _ I o x O Ky) as (Y & Y' & Z). specialize (Z k v id Pc). rewrite P in Z. destruct (Z eq_refl) as (Z1 & Z2 & Z3). split; [now constructor|]. split; [|intros j w i' H; now apply NK in H].
        intros m Hm. apply in_snoc in Hm. destruct Hm as [Hm|Hm]; [now apply Y'|lia].
      * apply Ob in Op; [|congruence]. destruct (iCtx _ _ I p y Op Ky) as (Y & Y' & Z). split; [exact Y|]. split; [exact Y'|]. intros j w i'. other j k Nj; [discriminate|apply Z].
  - intros X F. pose proof (xB _ _ A (exclusive_app _ _ X) (failure_app _ _ F)) as B. constructor; cbn; rewrite ?E1, ?E5.
    + intro h. destruct (bPend _ _ B h) as [H|(j & p & w & i' & c & m & H)]; [now left|]. right. exists j, p, w, i', c, m. other j k N; [congruence|exact H].
    + intros j p w h i' c m H. other j k N; [discriminate|now apply (bTake _ _ B j p w h i' c m)].
    + intros j p w h i' c m d H. other j k N; [discriminate|now apply (bRet _ _ B j p w h i' c m d)].
    + intros t1 k1 o1 id1 a1 i1 b1 t2 E. apply snoc_split in E. destruct E as [(-> & -> & E)|(t3 & -> & E)]; [|now apply (bTr _ _ B t1 k1 o1 id1 a1 i1 b1 t3)].
      injection E as -> -> -> -> -> ->. exists v. rewrite (cCur _ _ C). split; [exact Pc|]. now apply (bRet _ _ B k o v g id a i).
Qed.
Lemma all_go t s k u s' : All t s -> step_go s k = (u, s') -> All (t ++ u) s'.
Proof.
  intros A E. destruct (pcs s k) as [|o v|o v g id|o v g id|o v g id a i|o v g id a i|o v g id a i|o v g id a i b] eqn:P.
  - unfold step_go in E. rewrite P in E. injection E as <- <-. now rewrite app_nil_r.
  - eapply all_gen; eassumption.
  - unfold step_go in E. rewrite P in E. destruct (arr (gens s g)) eqn:Ha; injection E as <- <-; rewrite app_nil_r; [apply all_alloced; trivial; congruence|now apply all_array].
  - unfold step_go in E. rewrite P in E. destruct (arr (gens s g)) eqn:Ha; [destruct (32 <=? idx (gens s g))|]; injection E as <- <-; [|rewrite app_nil_r; now apply all_slot|];
      (apply all_fail with (s := s) (v := v); trivial; [now rewrite P|now repeat split|left; split; [reflexivity|congruence]]).
  - unfold step_go in E. rewrite P in E. injection E as <- <-. rewrite app_nil_r. now apply all_inc.
  - unfold step_go in E. rewrite P in E. destruct v as [b|b [|]]; injection E as <- <-; rewrite ?app_nil_r; [now apply all_body| |now apply all_write].
    pose proof (xG _ _ A) as G. pose proof (xC _ _ A) as C. assert (Pc : call_of (pcs s k) = Some (o, VEnc b true)) by (now rewrite P). assert (Pg : gen_of (pcs s k) = Some g) by (now rewrite P).
    apply all_fail with (s := s) (v := VEnc b true); trivial.
    + intro h. cbn. other h g N; now repeat split.
    + intros h L. cbn. apply upd_other. intros ->. pose proof (call_got _ _ _ _ _ _ G C Pc Pg) as Z. apply given_in in Z. destruct (gNew _ _ G g L) as (_ & W & _). rewrite W in Z. destruct Z.
    + right. now exists b.
  - unfold step_go in E. rewrite P in E. injection E as <- <-. rewrite app_nil_r. now apply all_take.
  - unfold step_go in E. rewrite P in E. fold (bump s o) in E. injection E as <- <-. eapply all_ret; eassumption.
Qed.
Lemma all_step caps t s e u s' : All t s -> step caps s e = (u, s') -> All (t ++ u) s'.
Proof.
  intros A E. assert (N : ok s = (u, s') -> All (t ++ u) s') by (intro H; injection H as <- <-; now rewrite app_nil_r).
  destruct e as [o m|o n|o o'|k o v|o|k]; cbn [step] in E.
  - destruct (objs s o) eqn:O; [now apply N|]. injection E as <- <-. apply all_new; trivial. now destruct m.
  - destruct (objs s o) eqn:O; [now apply N|]. destruct (Get (S n) s) as [g s1] eqn:Eg. injection E as <- <-. now apply all_serve with (s := s).
  - now apply all_multi with (s := s) (o := o) (o' := o').
  - destruct (pcs s k) eqn:P; try (now apply N). destruct (objs s o) eqn:O; [|now apply N]. injection E as <- <-. apply all_call; trivial. congruence.
  - eapply all_done; eassumption.
  - eapply all_go; eassumption.
Qed.
Lemma run_all caps es : forall t s u s', All t s -> run caps s es = (u, s') -> All (t ++ u) s'.
Proof.
  induction es as [|e es IH]; intros t s u s' A; cbn [run]; [intro E; injection E as <- <-; now rewrite app_nil_r|].
  destruct (step caps s e) as [o1 s1] eqn:E1. destruct (run caps s1 es) as [o2 s2] eqn:E2. intro E. injection E as <- <-. rewrite app_assoc. eapply IH; [eapply all_step; eassumption|exact E2].
Qed.
Lemma start_all caps es t s : start caps es = (t, s) -> All t s.
Proof. intro E. exact (run_all caps es [] s_init t s all_init E). Qed.

(** ** The discipline, decided *)
Fixpoint splits {A} (p : list A) (t : list A) : list (list A * A) := match t with [] => [] | x :: t => (p, x) :: splits (p ++ [x]) t end.
Lemma splits_in {A} (t : list A) : forall p t1 x t2, t = t1 ++ x :: t2 -> In (p ++ t1, x) (splits p t).
Proof.
  induction t as [|y t IH]; intros p t1 x t2 E; [now destruct t1|]. cbn. destruct t1 as [|z t1]; cbn in E; injection E as -> ->.
  - left. now rewrite app_nil_r.
  - right. specialize (IH (p ++ [z]) t1 x t2 eq_refl). rewrite <- app_assoc in IH. exact IH.
Qed.
Definition idleb (t : list obs) (r : nat) : bool :=
  forallb (fun x => match x with OCall k _ _ => match cur t k with Some (o, _) => negb (root t o =? r) | None => true end | _ => true end) t.
Lemma idleb_ok t r : idleb t r = true -> idle t r.
Proof.
  intros H k o v C. unfold idleb in H. rewrite forallb_forall in H. specialize (H _ (cur_in _ _ _ _ C)). cbn in H. rewrite C in H. apply negb_true_iff in H. now apply Nat.eqb_neq.
Qed.
Definition doneb (t : list obs) (r : nat) : bool := existsb (fun x => match x with ODone o => o =? r | _ => false end) t.
Lemma doneb_ok t r : doneb t r = false -> ~ In (ODone r) t.
Proof. intros H X. assert (Y : doneb t r = true) by (unfold doneb; rewrite existsb_exists; exists (ODone r); split; [exact X|apply Nat.eqb_refl]). congruence. Qed.
Definition exclusiveb (t : list obs) : bool := forallb (fun p => match snd p with
  | OCall _ o _ | OMulti o _ => idleb (fst p) (root (fst p) o) && negb (doneb (fst p) (root (fst p) o))
  | ODone o => idleb (fst p) (root (fst p) o)
  | _ => true end) (splits [] t).
Lemma exclusiveb_ok t : exclusiveb t = true -> exclusive t.
Proof.
  intros H t1 x t2 E. unfold exclusiveb in H. rewrite forallb_forall in H. specialize (H _ (splits_in t [] t1 x t2 E)). cbn [fst snd app] in H. destruct x; trivial; try (now apply idleb_ok).
  all: apply andb_prop in H; destruct H as [H1 H2]; split; [now apply idleb_ok|apply doneb_ok; now apply negb_true_iff].
Qed.
