(** Theorems about timers spread over several heaps: C114. *)
From Coq Require Import ZArith List Bool Arith Lia.
Import ListNotations.
From Verif Require Import TimerModel TimerSpec TimerProofs TimerInv TimerProps HeapsModel HeapsSpec HeapsProofs.
Open Scope nat_scope.

(** *** C114: a Timer stays with its heap *)
(** No index into the slice of heaps is out of range, no heap is corrupted, and everything that ever
    happens to a Timer happens on one heap. *)
Theorem C114_timers_keep_their_heap_partial : forall l tr s,
  run start l = (tr, s) -> counts_first l -> serial tr ->
  (forall k, ~ In (OPanic k) tr) /\ (forall o, ~ In (OCrash o) tr) /\
  forall o v p w x, In (OOn o v) tr -> In (OOn p w) tr -> about v = Some x -> about w = Some x -> o = p.
Proof.
  intros l tr s R C S. pose proof (hi_run _ _ _ R C S) as H. destruct (hi_ok _ _ H) as [A B]. split; auto. split; auto.
  intros o v p w x J K Av Aw. destruct (hi_on _ _ H _ _ J) as [_ Q1]. destruct (hi_on _ _ H _ _ K) as [_ Q2].
  specialize (Q1 x Av). specialize (Q2 x Aw). congruence.
Qed.

(** What happens on one heap is a history of that heap alone: C35-C38 hold for each heap as if there
    were no other. *)
Theorem C114_each_heap_is_a_heap_partial : forall l tr s o,
  run start l = (tr, s) -> counts_first l -> serial tr -> exists ops h, hrun hinit ops = Some (h, at_heap o tr).
Proof.
  intros l tr s o R C S. pose proof (hi_run _ _ _ R C S) as H. destruct (Nat.lt_ge_cases o (nobj s)) as [L|L].
  - destruct (hi_heap _ _ H o L) as (ops & h & E & _). eauto.
  - rewrite (at_heap_none _ _ _ H L). exists [], hinit. reflexivity.
Qed.

(** *** users see the guarantees of C35-C37 across heaps *)
Lemma timeline_split tr p v q : timeline tr = p ++ v :: q -> exists a b c, tr = a ++ b :: c /\ timeline a = p /\ timeline c = q /\
  (b = OMiss match v with Stopped x => x | _ => 0 end /\ v = Stopped match v with Stopped x => x | _ => 0 end \/ exists o, b = OOn o v).
Proof.
  revert p. induction tr as [|b tr IH]; intros p Q; [destruct p; discriminate|].
  assert (K : timeline tr = p ++ v :: q -> timeline [b] = [] -> exists a b' c, b :: tr = a ++ b' :: c /\ timeline a = p /\ timeline c = q /\
     (b' = OMiss match v with Stopped x => x | _ => 0 end /\ v = Stopped match v with Stopped x => x | _ => 0 end \/ exists o, b' = OOn o v)).
  { intros Q' B. destruct (IH p Q') as (a & b' & c & -> & P1 & P2 & P3). exists (b :: a), b', c. split; auto. split; [|auto].
    change (b :: a) with ([b] ++ a). rewrite timeline_app, B. auto. }
  destruct b as [k x e|k x|o w|x|k|o]; cbn [timeline flat_map app] in Q; try (apply K; [exact Q|reflexivity]).
  - destruct p as [|w' p]; injection Q as -> Q.
    + exists [], (OOn o v), tr. split; auto. split; auto. split; auto. right. eauto.
    + destruct (IH p Q) as (a & b' & c & -> & P1 & P2 & P3). exists (OOn o w' :: a), b', c. split; auto. split; [|auto].
      cbn [timeline flat_map app]. f_equal. exact P1.
  - destruct p as [|w' p]; injection Q as <- Q.
    + exists [], (OMiss x), tr. split; auto.
    + destruct (IH p Q) as (a & b' & c & -> & P1 & P2 & P3). exists (OMiss x :: a), b', c. split; auto. split; [|auto].
      cbn [timeline flat_map app]. f_equal. exact P1.
Qed.
Lemma at_heap_split o tr p v q : at_heap o tr = p ++ v :: q -> exists a c, tr = a ++ OOn o v :: c /\ at_heap o a = p.
Proof.
  revert p. induction tr as [|b tr IH]; intros p Q; [destruct p; discriminate|].
  assert (K : at_heap o tr = p ++ v :: q -> at_heap o [b] = [] -> exists a c, b :: tr = a ++ OOn o v :: c /\ at_heap o a = p).
  { intros Q' B. destruct (IH p Q') as (a & c & -> & P1). exists (b :: a), c. split; auto.
    change (b :: a) with ([b] ++ a). rewrite at_heap_app, B. auto. }
  destruct b as [k x e|k x|o' w|x|k|o']; cbn [at_heap flat_map app] in Q; try (apply K; [exact Q|reflexivity]).
  destruct (Nat.eqb_spec o' o) as [->|N].
  - cbn [app] in Q. destruct p as [|w' p]; injection Q as -> Q.
    + exists [], tr. auto.
    + destruct (IH p Q) as (a & c & -> & P1). exists (OOn o w' :: a), c. split; auto.
      cbn [at_heap flat_map]. rewrite Nat.eqb_refl. cbn [app]. f_equal. exact P1.
  - apply K; [exact Q|]. cbn [at_heap flat_map]. destruct (Nat.eqb_spec o' o); [congruence|reflexivity].
Qed.
Lemma disciplined_heap l tr s o : run start l = (tr, s) -> counts_first l -> serial tr -> disciplined (timeline tr) -> disciplined (at_heap o tr).
Proof.
  intros R C S D pre x e post Q. destruct (at_heap_split _ _ _ _ _ Q) as (a & c & T & <-).
  destruct (hi_prefix _ _ _ _ _ R C S T) as (s1 & H). rewrite (hi_arm _ _ H).
  destruct (th s1 x =? Datatypes.S o); auto. apply (D (timeline a) x e (timeline c)). rewrite T, timeline_app. reflexivity.
Qed.

(** A timer fires only after its deadline, while it is armed, with the deadline it was armed with. *)
Theorem C114_only_armed_timers_fire_partial : forall l tr s pre x e now post,
  run start l = (tr, s) -> counts_first l -> serial tr -> disciplined (timeline tr) ->
  timeline tr = pre ++ Fired x e now :: post -> armed pre x = Some e /\ (e < now)%Z.
Proof.
  intros l tr s pre x e now post R C S D Q. destruct (timeline_split _ _ _ _ Q) as (a & b & c & T & <- & _ & [[_ B]|(o & ->)]); [discriminate|].
  destruct (hi_prefix _ _ _ _ _ R C S T) as (s1 & H).
  assert (T' : tr = (a ++ [OOn o (Fired x e now)]) ++ c) by (rewrite <- app_assoc; exact T).
  destruct (hi_prefix _ _ _ _ _ R C S T') as (s2 & H2).
  destruct (hi_on _ _ H2 o (Fired x e now)) as [L Th]; [apply in_or_app; right; left; auto|]. specialize (Th x eq_refl).
  destruct (hi_heap _ _ H2 o L) as (ops & h & E & _). rewrite at_heap_app in E. cbn [at_heap flat_map] in E. rewrite Nat.eqb_refl in E. cbn [app] in E.
  fold (at_heap o a) in E.
  assert (Dp : disciplined (at_heap o a)).
  { destruct (run_prefix _ _ _ _ _ _ R T) as (l1 & l2 & s3 & -> & R1). eapply disciplined_heap; eauto.
    - intros k J. apply (C k). apply in_or_app. auto.
    - rewrite T in S. eapply serial_prefix; eauto.
    - rewrite T, timeline_app in D. eapply disciplined_prefix; eauto. }
  pose proof (C36_only_armed_timers_fire _ _ _ (at_heap o a) x e now [] E eq_refl Dp) as A.
  destruct (C35_deadline_order_never_early _ _ _ (at_heap o a) x e now [] E eq_refl) as (ops1 & h1 & _ & Lt & _).
  split; auto. rewrite (hi_arm _ _ H) in A. destruct (th s1 x =? Datatypes.S o); [exact A|discriminate].
Qed.
Lemma armed_again l tr s a x v b e now c : run start l = (tr, s) -> counts_first l -> serial tr -> disciplined (timeline tr) ->
  timeline tr = a ++ v :: b ++ Fired x e now :: c -> (forall st0, upd_armed x st0 v = None) -> exists f, In (Armed x f) b.
Proof.
  intros R C S D Q U.
  assert (Q' : timeline tr = (a ++ v :: b) ++ Fired x e now :: c) by (rewrite Q, <- app_assoc; reflexivity).
  destruct (C114_only_armed_timers_fire_partial _ _ _ _ _ _ _ _ R C S D Q') as [A _].
  change (v :: b) with ([v] ++ b) in A. rewrite app_assoc, armed_app, armed_snoc, U in A.
  apply fold_armed in A. destruct A as [A|A]; [congruence|auto].
Qed.
(** Once Stop has returned the timer does not fire until it is armed again. *)
Theorem C114_stopped_timer_never_fires_partial : forall l tr s a x b e now c,
  run start l = (tr, s) -> counts_first l -> serial tr -> disciplined (timeline tr) ->
  timeline tr = a ++ Stopped x :: b ++ Fired x e now :: c -> exists f, In (Armed x f) b.
Proof.
  intros l tr s a x b e now c R C S D Q. eapply armed_again; eauto. intros st0. cbn. rewrite Nat.eqb_refl. reflexivity.
Qed.
(** One After leads to one expiry at most. *)
Theorem C114_fires_once_per_After_partial : forall l tr s a x e1 n1 b e2 n2 c,
  run start l = (tr, s) -> counts_first l -> serial tr -> disciplined (timeline tr) ->
  timeline tr = a ++ Fired x e1 n1 :: b ++ Fired x e2 n2 :: c -> exists f, In (Armed x f) b.
Proof.
  intros l tr s a x e1 n1 b e2 n2 c R C S D Q. eapply armed_again; eauto. intros st0. cbn. rewrite Nat.eqb_refl. reflexivity.
Qed.

Lemma live_body h : live_cells (body h) = live_cells h.
Proof. reflexivity. Qed.
(** Every armed timer is held by exactly one heap, one that has its loop. *)
Theorem C114_armed_timers_are_held_partial : forall l tr s x e,
  run start l = (tr, s) -> counts_first l -> serial tr -> disciplined (timeline tr) ->
  (armed (timeline tr) x = Some e <-> exists o, o < nobj s /\ In (x, e) (live_cells (hp s o))) /\
  forall o p f, o < nobj s -> p < nobj s -> In (x, e) (live_cells (hp s o)) -> In (x, f) (live_cells (hp s p)) -> o = p /\ e = f.
Proof.
  intros l tr s x e R C S D. pose proof (hi_run _ _ _ R C S) as H.
  assert (G : forall o f, o < nobj s -> (In (x, f) (live_cells (hp s o)) <-> armed (at_heap o tr) x = Some f)).
  { intros o f L. destruct (hi_heap _ _ H o L) as (ops & h & E & B & _). rewrite B, live_body.
    apply (C37_live_entries_are_the_armed_timers _ _ _ E). eapply disciplined_heap; eauto. }
  split; [split|].
  - intros A. destruct (th s x) as [|o] eqn:T; [rewrite (hi_arm0 _ _ H x T) in A; discriminate|].
    pose proof (hi_th _ _ H x) as L. exists o. split; [lia|]. apply G; [lia|]. rewrite (hi_arm _ _ H), T, Nat.eqb_refl. exact A.
  - intros (o & L & J). apply G in J; auto. rewrite (hi_arm _ _ H) in J. destruct (th s x =? Datatypes.S o); [exact J|discriminate].
  - intros o p f Lo Lp J K. apply G in J, K; auto. rewrite (hi_arm _ _ H) in J, K.
    destruct (Nat.eqb_spec (th s x) (Datatypes.S o)) as [T1|]; [|discriminate]. destruct (Nat.eqb_spec (th s x) (Datatypes.S p)) as [T2|]; [|discriminate].
    split; congruence.
Qed.

(** An armed timer whose deadline is past fires, when the loop of its heap gets to run. *)
Lemma loop_rounds o now n : forall s h ops tr0 h' tr', hrun hinit ops = Some (h, tr0) -> hp s o = body h -> o < nobj s ->
  hrun h (repeat (Pop now) n) = Some (h', tr') -> exists s', run s (repeat (ELoop o now) n) = (map (OOn o) tr', s').
Proof.
  induction n as [|n IH]; intros s h ops tr0 h' tr' E B L Q; cbn [repeat hrun run] in *.
  - injection Q as <- <-. exists s. reflexivity.
  - destruct (hstep_ti ops h tr0 (ti s) (Pop now) E) as (h1 & f & v & S1 & S2 & _); [discriminate|].
    rewrite S1 in Q. destruct (hrun h1 (repeat (Pop now) n)) as [[h2 t2]|] eqn:Q2; [|discriminate]. injection Q as <- <-.
    cbn [step]. apply Nat.ltb_lt in L. rewrite L. unfold on. rewrite B, body_ti, S2.
    destruct (IH (set_hp s o (set_ti h1 f)) h1 (ops ++ [Pop now]) (tr0 ++ [v]) h2 t2) as (s' & R'); auto.
    + apply hrun_app. exists h, tr0, [v]. split; auto. split; auto. cbn [hrun]. rewrite S1. reflexivity.
    + cbn [set_hp hp]. rewrite fupd_eq. reflexivity.
    + apply Nat.ltb_lt. exact L.
    + rewrite R'. exists s'. reflexivity.
Qed.
Lemma pops_only h n now h' tr' : hrun h (repeat (Pop now) n) = Some (h', tr') ->
  forall v, In v tr' -> v = Asleep now \/ exists x e, v = Fired x e now.
Proof.
  revert h tr'. induction n as [|n IH]; intros h tr' E v J; cbn [repeat hrun] in E.
  - injection E as <- <-. destruct J.
  - destruct (hstep h (Pop now)) as [[h1 w]|] eqn:S1; [|discriminate]. destruct (hrun h1 (repeat (Pop now) n)) as [[h2 t2]|] eqn:E2; [|discriminate].
    injection E as <- <-. destruct J as [<-|J]; [|eapply IH; eauto]. cbn [hstep] in S1. destruct (size h =? 0)%Z; [injection S1 as <- <-; auto|].
    destruct (get h (top h)) as [t|]; [|discriminate]. cbn [bind] in S1. destruct (now <=? ie t)%Z; [injection S1 as <- <-; auto|].
    destruct (remove h (top h)); [|discriminate]. cbn [bind] in S1. destruct (ix t) as [x|]; [|discriminate]. injection S1 as <- <-. eauto.
Qed.
Lemma fired_between b x e : (forall v, In v b -> (exists n, v = Asleep n) \/ exists y f n, v = Fired y f n) ->
  forall tr, armed tr x = Some e -> armed (tr ++ b) x = None -> exists p y f n q, b = p ++ Fired y f n :: q /\ y = x /\ armed (tr ++ p) x = Some e.
Proof.
  induction b as [|v b IH]; intros V tr A N; [rewrite app_nil_r in N; congruence|].
  destruct (V v (or_introl eq_refl)) as [(n & ->)|(y & f & n & ->)].
  - destruct (IH (fun w J => V w (or_intror J)) (tr ++ [Asleep n])) as (p & y & f & m & q & -> & Y & P).
    + rewrite armed_snoc. exact A.
    + rewrite <- app_assoc. exact N.
    + exists (Asleep n :: p), y, f, m, q. split; auto. split; auto. rewrite <- app_assoc in P. exact P.
  - destruct (Nat.eq_dec y x) as [->|Ny].
    + exists [], x, f, n, b. split; auto. split; auto. rewrite app_nil_r. auto.
    + destruct (IH (fun w J => V w (or_intror J)) (tr ++ [Fired y f n])) as (p & z & g & m & q & -> & Y & P).
      * rewrite armed_snoc. cbn. destruct (Nat.eqb_spec y x); [congruence|exact A].
      * rewrite <- app_assoc. exact N.
      * exists (Fired y f n :: p), z, g, m, q. split; auto. split; auto. rewrite <- app_assoc in P. exact P.
Qed.
Theorem C114_due_timers_fire_partial : forall l tr s x e now,
  run start l = (tr, s) -> counts_first l -> serial tr -> disciplined (timeline tr) ->
  armed (timeline tr) x = Some e -> (e < now)%Z ->
  exists o n, In (OOn o (Fired x e now)) (fst (run s (repeat (ELoop o now) n))).
Proof.
  intros l tr s x e now R C S D A Lt. pose proof (hi_run _ _ _ R C S) as H.
  destruct (th s x) as [|o] eqn:T; [rewrite (hi_arm0 _ _ H x T) in A; discriminate|].
  assert (L : o < nobj s) by (pose proof (hi_th _ _ H x); lia).
  destruct (hi_heap _ _ H o L) as (ops & h & E & B & _).
  pose proof (disciplined_heap _ _ _ o R C S D) as Do.
  assert (Ao : armed (at_heap o tr) x = Some e) by (rewrite (hi_arm _ _ H), T, Nat.eqb_refl; exact A).
  destruct (C37_loop_drains _ _ _ now E) as (h' & tr' & Q & J). set (n := Datatypes.S (length (live_cells h))) in *.
  destruct (loop_rounds o now n s h ops _ h' tr' E B L Q) as (s' & R').
  exists o, n. rewrite R'. cbn [fst]. apply in_map.
  assert (E' : hrun hinit (ops ++ repeat (Pop now) n) = Some (h', at_heap o tr ++ tr')).
  { apply hrun_app. exists h, (at_heap o tr), tr'. auto. }
  apply in_split in J. destruct J as (p & q & Qs). subst tr'.
  assert (Pops := pops_only _ _ _ _ _ Q).
  assert (Dp : disciplined (at_heap o tr ++ p)).
  { intros pre y f post Eq. destruct (Nat.lt_ge_cases (length pre) (length (at_heap o tr))) as [Lp|Lp].
    - apply (Do pre y f (firstn (length (at_heap o tr) - length pre - 1) post)).
      assert (F : firstn (length (at_heap o tr)) (at_heap o tr ++ p) = at_heap o tr).
      { rewrite firstn_app, Nat.sub_diag, firstn_all. cbn. apply app_nil_r. }
      rewrite <- F at 1. rewrite Eq, firstn_app, firstn_all2 by lia. f_equal.
      destruct (length (at_heap o tr) - length pre) as [|m] eqn:M; [lia|]. cbn [firstn]. f_equal. f_equal. lia.
    - exfalso. assert (K : In (Armed y f) p).
      { assert (F : skipn (length (at_heap o tr)) (at_heap o tr ++ p) = p) by (rewrite skipn_app, skipn_all, Nat.sub_diag; reflexivity).
        rewrite <- F, Eq, skipn_app. apply in_or_app. right. replace (length (at_heap o tr) - length pre) with 0 by lia. left. reflexivity. }
      destruct (Pops (Armed y f)) as [W|(? & ? & W)]; [apply in_or_app; auto|discriminate|discriminate]. }
  assert (Eq : at_heap o tr ++ p ++ Asleep now :: q = (at_heap o tr ++ p) ++ Asleep now :: q) by (rewrite <- app_assoc; reflexivity).
  destruct (C37_nothing_overdue_when_asleep _ _ _ _ _ _ E' Eq) as (ops1 & h1 & _ & _ & M). specialize (M Dp).
  destruct (armed (at_heap o tr ++ p) x) as [f|] eqn:Ap.
  - specialize (M x f Ap). exfalso. assert (f = e); [|subst; lia]. revert Ap. rewrite armed_app, Ao.
    assert (V : forall v, In v p -> v = Asleep now \/ exists x e, v = Fired x e now) by (intros v K; apply Pops; apply in_or_app; auto).
    clear - V. revert V. assert (G : forall st0, (st0 = Some e \/ st0 = None) -> (forall v, In v p -> v = Asleep now \/ exists x e, v = Fired x e now) ->
      fold_left (upd_armed x) p st0 = Some f -> f = e).
    { induction p as [|v p IH]; intros st0 [-> | ->] V; cbn; try congruence; try (intros [= ->]; auto); intros Q.
      - eapply IH; [|intros; apply V; right; auto|exact Q]. destruct (V v (or_introl eq_refl)) as [->|(y & g & ->)]; cbn; auto.
        destruct (y =? x); auto.
      - eapply IH; [|intros; apply V; right; auto|exact Q]. destruct (V v (or_introl eq_refl)) as [->|(y & g & ->)]; cbn; auto.
        destruct (y =? x); auto. }
    intros V. apply G; auto.
  - destruct (fired_between p x e) with (tr := at_heap o tr) as (p1 & y & f & m & q1 & Ep & -> & P1); auto.
    { intros v K. destruct (Pops v) as [->|(y & g & ->)]; eauto 6. apply in_or_app. auto. }
    assert (W : In (Fired x f m) (p ++ Asleep now :: q)) by (rewrite Ep, <- app_assoc; apply in_or_app; right; left; auto).
    destruct (Pops _ W) as [W'|(? & ? & W')]; [discriminate|]. injection W' as <- <- ->.
    assert (Eq2 : at_heap o tr ++ p ++ Asleep now :: q = (at_heap o tr ++ p1) ++ Fired x f now :: q1 ++ Asleep now :: q).
    { rewrite Ep, <- !app_assoc. reflexivity. }
    assert (Dp1 : disciplined (at_heap o tr ++ p1)).
    { rewrite Ep in Dp. rewrite app_assoc in Dp. eapply disciplined_prefix; eauto. }
    pose proof (C36_only_armed_timers_fire _ _ _ _ _ _ _ _ E' Eq2 Dp1) as F. rewrite P1 in F. injection F as <-. exact W.
Qed.

(** *** what is false *)
(** The order of deadlines holds within one heap only: a timer can fire although another one, with an
    earlier deadline, is due and waits on another heap. *)
Definition two : list ev :=
  [EAfter 0 1 20%Z] ++ repeat (EGo 0) 7 ++ [EAfter 0 2 10%Z] ++ repeat (EGo 0) 7 ++ [ELoop 1 50%Z; ELoop 0 50%Z].
Lemma run_two : fst (run start two) =
  [OAfter 0 1 20%Z; OOn 1 (Armed 1 20%Z); OAfter 0 2 10%Z; OOn 0 (Armed 2 10%Z); OOn 1 (Fired 1 20 50)%Z; OOn 0 (Fired 2 10 50)%Z].
Proof. vm_compute. reflexivity. Qed.
Fixpoint serialb (pre tr : list obs) : bool :=
  match tr with
  | [] => true
  | b :: tr => (match b with OAfter _ x _ => negb (busy pre x) | _ => true end) && serialb (pre ++ [b]) tr
  end.
Lemma serialb_ok tr : serialb [] tr = true -> serial tr.
Proof.
  assert (G : forall tr pre0, serialb pre0 tr = true -> forall pre k x e post, tr = pre ++ OAfter k x e :: post -> busy (pre0 ++ pre) x = false).
  { clear tr. induction tr as [|b tr IH]; intros pre0 D pre k x e post Q; [destruct pre; discriminate|].
    cbn [serialb] in D. apply andb_prop in D. destruct D as [D1 D2].
    destruct pre as [|b' pre]; injection Q as -> Q.
    - rewrite app_nil_r. destruct (busy pre0 x); [discriminate|reflexivity].
    - change (b' :: pre) with ([b'] ++ pre). rewrite app_assoc. eapply IH; eauto. }
  intros D pre k x e post Q. apply (G tr [] D pre k x e post Q).
Qed.
Definition firstb (l : list ev) : bool := forallb (fun e => match e with EHeapsFirst _ => false | _ => true end) l.
Lemma firstb_ok l : firstb l = true -> counts_first l.
Proof. intros F k J. unfold firstb in F. rewrite forallb_forall in F. specialize (F _ J). discriminate. Qed.

Theorem C114_deadline_order_refuted : exists l tr s a b x e y f now,
  run start l = (tr, s) /\ counts_first l /\ serial tr /\ disciplined (timeline tr) /\
  timeline tr = a ++ Fired x e now :: b /\ armed a y = Some f /\ (f < e)%Z /\ In (Fired y f now) b.
Proof.
  exists two, (fst (run start two)), (snd (run start two)), [Armed 1 20; Armed 2 10]%Z, [Fired 2 10 50]%Z, 1, 20%Z, 2, 10%Z, 50%Z.
  split; [apply surjective_pairing|]. rewrite run_two. split; [apply firstb_ok; reflexivity|]. split; [apply serialb_ok; reflexivity|].
  split; [apply disciplinedb_ok; reflexivity|]. split; [reflexivity|]. split; [reflexivity|]. split; [lia|]. left. reflexivity.
Qed.

(** If After runs twice at once on one Timer, a Stop of that Timer can take another, unrelated timer out
    of its heap: it never fires. *)
Definition race : list ev :=
  [EAfter 0 1 20%Z; EAfter 1 1 20%Z] ++ repeat (EGo 0) 5 ++ repeat (EGo 1) 5 ++ [EAfter 2 2 10%Z] ++ repeat (EGo 2) 7 ++
  repeat (EGo 1) 2 ++ [EGo 0] ++ [EStop 3 1] ++ repeat (EGo 3) 3 ++ [EGo 0] ++
  [ELoop 0 100%Z; ELoop 0 100%Z; ELoop 1 100%Z; ELoop 1 100%Z].
Lemma run_race : fst (run start race) =
  [OAfter 0 1 20; OAfter 1 1 20; OAfter 2 2 10; OOn 1 (Armed 2 10); OOn 0 (Armed 1 20); OStop 3 1; OOn 1 (Stopped 1);
   OOn 1 (Armed 1 20); OOn 0 (Fired 1 20 100); OOn 0 (Asleep 100); OOn 1 (Fired 1 20 100); OOn 1 (Asleep 100)]%Z.
Proof. vm_compute. reflexivity. Qed.
Theorem C114_needs_serial_refuted : exists l tr s y f now,
  run start l = (tr, s) /\ counts_first l /\ armed (timeline tr) y = Some f /\ (f < now)%Z /\
  (forall o, ~ In (y, f) (live_cells (hp s o))) /\ In (OOn 0 (Asleep now)) tr /\ In (OOn 1 (Asleep now)) tr.
Proof.
  exists race, (fst (run start race)), (snd (run start race)), 2, 10%Z, 100%Z.
  split; [apply surjective_pairing|]. split; [apply firstb_ok; reflexivity|]. split; [vm_compute; reflexivity|]. split; [lia|].
  split; [|rewrite run_race; cbn; auto 20].
  intros [|[|o]]; vm_compute; intuition discriminate.
Qed.

(** If heaps is read before heapN, After can panic: the slice read is the short one, the number is the
    one of the grown set. The schedule: 9998 calls of After have taken their number and wait; one more
    has read heaps; the next one, number 10000, adds heaps for two processors and sets heapN to 16. *)
Definition spin (n : nat) : list ev := flat_map (fun x => [EAfter x x 0%Z; EGo x; EGo x]) (seq 2 n).
Definition calls (n : nat) : list obs := map (fun x => OAfter x x 0%Z) (seq 2 n).
Lemma run_after s k x d l : pcs s k = Idle ->
  run s (EAfter k x d :: l) = let (os, s') := run (set_pc s k (ALoad x d)) l in (OAfter k x d :: os, s').
Proof. intros E. cbn [run step]. rewrite E. reflexivity. Qed.
Lemma go_load s k x d : pcs s k = ALoad x d -> th s x = 0 -> go s k = ([], set_pc s k (NAdd x d)).
Proof. intros E T. unfold go. rewrite E, T. reflexivity. Qed.
Lemma go_add s k x d : pcs s k = NAdd x d -> (0 <= heapI s + 1 < 2 ^ 32)%Z ->
  go s k = ([], set_pc (set_ctr s (heapI s + 1)) k (NMod x d (heapI s + 1))).
Proof. intros E T. unfold go. rewrite E. rewrite Z.mod_small by lia. reflexivity. Qed.
Lemma run_spin n : (Z.of_nat n < 2 ^ 32)%Z -> exists ps,
  run start (spin n) = (calls n, mkSt [0; 1] (fun o => S o) 2 (fun _ => body hinit) (fun _ => 0) (fun _ => 0) (Z.of_nat n) 2 None ps) /\
  forall k, k < 2 \/ n + 2 <= k -> ps k = Idle.
Proof.
  induction n as [|n IH]; intros B.
  - exists (fun _ => Idle). split; auto.
  - destruct IH as (ps & R & I); [lia|]. unfold spin, calls in *. rewrite seq_S, flat_map_app, map_app, run_app, R.
    cbn [flat_map app map]. set (k := 2 + n). rewrite run_after by (cbn [pcs]; apply I; lia).
    cbn [run step]. erewrite go_load; [|cbn [pcs set_pc]; apply fupd_eq|reflexivity].
    erewrite go_add; [|cbn [pcs set_pc]; apply fupd_eq|cbn [heapI set_pc]; lia].
    cbn [set_ctr set_pc heapI pcs heaps objI nobj hp ti th heapN heapM app].
    replace (Z.of_nat n + 1)%Z with (Z.of_nat (S n)) by lia.
    eexists. split; [reflexivity|]. intros j L. cbn [set_pc set_ctr pcs]. rewrite !fupd_ne by lia. apply I. lia.
Qed.
Definition late : list ev :=
  [EAfter 0 0 0%Z; EAfter 1 1 0%Z; EGo 0; EGo 0; EGo 0; EHeapsFirst 0; EGo 1; EGo 1; EGo 1; EGo 1; EProcs 1 2] ++
  repeat (EGo 1) 30 ++ [EGo 0].
Lemma run_late ps : ps 0 = Idle -> ps 1 = Idle ->
  fst (run (mkSt [0; 1] (fun o => S o) 2 (fun _ => body hinit) (fun _ => 0) (fun _ => 0) 9998%Z 2 None ps) late) =
  [OAfter 0 0 0%Z; OAfter 1 1 0%Z; OPanic 0].
Proof.
  intros Ia Ib. unfold late. cbn [repeat app]. rewrite run_after by exact Ia. rewrite run_after by (cbn [pcs set_pc]; rewrite fupd_ne by auto; exact Ib).
  vm_compute. reflexivity.
Qed.
Lemma busy_calls l x : ~ In x l -> busy (map (fun x => OAfter x x 0%Z) l) x = false.
Proof.
  induction l as [|y l IH] using rev_ind; intros N; [reflexivity|]. rewrite map_app. cbn [map]. rewrite busy_snoc. cbn [upd_busy].
  destruct (Nat.eqb_spec y x) as [->|]; [exfalso; apply N; apply in_or_app; right; left; auto|]. apply IH. intros J. apply N. apply in_or_app. auto.
Qed.
Lemma serial_calls l post : NoDup l -> (forall k x e, ~ In (OAfter k x e) post) -> serial (map (fun x => OAfter x x 0%Z) l ++ post).
Proof.
  intros ND NP pre k x e post' Q.
  assert (G : exists l1 l2, l = l1 ++ x :: l2 /\ pre = map (fun x => OAfter x x 0%Z) l1).
  { clear ND. revert pre Q. induction l as [|y l IH]; intros pre Q.
    - exfalso. cbn [map app] in Q. apply (NP k x e). rewrite Q. apply in_or_app. right. left. auto.
    - destruct pre as [|b pre]; injection Q as Q1 Q2.
      + exists [], l. subst. auto.
      + destruct (IH _ Q2) as (l1 & l2 & -> & ->). exists (y :: l1), l2. subst b. auto. }
  destruct G as (l1 & l2 & -> & ->). apply busy_calls. apply NoDup_remove_2 in ND. intros J. apply ND. apply in_or_app. auto.
Qed.
Theorem C114_heaps_first_refuted : exists l tr s k, run start l = (tr, s) /\ serial tr /\ In (OPanic k) tr.
Proof.
  destruct (run_spin (Z.to_nat 9998)) as (ps & R & I); [lia|]. replace (Z.of_nat (Z.to_nat 9998)) with 9998%Z in R by lia.
  pose proof (run_late ps (I 0 ltac:(lia)) (I 1 ltac:(lia))) as L.
  remember (mkSt [0; 1] (fun o => S o) 2 (fun _ => body hinit) (fun _ => 0) (fun _ => 0) 9998%Z 2 None ps) as s1 eqn:E1. clear E1.
  remember (Z.to_nat 9998) as m eqn:Em. clear Em.
  destruct (run s1 late) as [t2 s2] eqn:R2. cbn [fst] in L. subst t2.
  exists (spin m ++ late), (calls m ++ [OAfter 0 0 0%Z; OAfter 1 1 0%Z; OPanic 0]), s2, 0. split.
  - rewrite run_app, R, R2. reflexivity.
  - split; [|apply in_or_app; right; right; right; left; reflexivity].
    assert (Q : calls m ++ [OAfter 0 0 0%Z; OAfter 1 1 0%Z; OPanic 0] = map (fun x => OAfter x x 0%Z) (seq 2 m ++ [0; 1]) ++ [OPanic 0]).
    { unfold calls. rewrite map_app, <- app_assoc. reflexivity. }
    rewrite Q. apply serial_calls.
    + assert (P : NoDup (seq 0 2 ++ seq 2 m)) by (rewrite <- seq_app; apply seq_NoDup).
      eapply Permutation.Permutation_NoDup; [apply Permutation.Permutation_app_comm|exact P].
    + intros k x e [J|[]]; discriminate.
Qed.

(** *** the hypotheses are met *)
(** [two] above is serial, disciplined and reads heapN first; so is this run with a Stop, a second After
    of the same Timer and an early Stop; its timers are on two heaps. *)
Definition shown : list ev :=
  [EStop 3 1; EGo 3; EAfter 0 1 20%Z; EAfter 1 2 10%Z; EGo 0; EGo 1; EGo 0; EGo 1] ++ repeat (EGo 0) 5 ++ repeat (EGo 1) 5 ++
  [EStop 2 1] ++ repeat (EGo 2) 3 ++ [EAfter 2 1 30%Z] ++ repeat (EGo 2) 3 ++ [ELoop 0 15%Z; ELoop 1 15%Z; ELoop 1 40%Z; ELoop 1 40%Z].
Example C114_shown : timeline (fst (run start shown)) =
  [Stopped 1; Armed 1 20; Armed 2 10; Stopped 1; Armed 1 30; Fired 2 10 15; Asleep 15; Fired 1 30 40; Asleep 40]%Z /\
  counts_first shown /\ serial (fst (run start shown)) /\ disciplined (timeline (fst (run start shown))).
Proof.
  assert (E : fst (run start shown) = [OStop 3 1; OMiss 1; OAfter 0 1 20%Z; OAfter 1 2 10%Z; OOn 1 (Armed 1 20%Z); OOn 0 (Armed 2 10%Z);
     OStop 2 1; OOn 1 (Stopped 1); OAfter 2 1 30%Z; OOn 1 (Armed 1 30%Z); OOn 0 (Fired 2 10 15)%Z; OOn 1 (Asleep 15%Z); OOn 1 (Fired 1 30 40)%Z; OOn 1 (Asleep 40%Z)]).
  { vm_compute. reflexivity. }
  rewrite E. split; [reflexivity|]. split; [apply firstb_ok; reflexivity|]. split; [apply serialb_ok; reflexivity|apply disciplinedb_ok; reflexivity].
Qed.

Print Assumptions C114_timers_keep_their_heap_partial.
Print Assumptions C114_each_heap_is_a_heap_partial.
Print Assumptions C114_only_armed_timers_fire_partial.
Print Assumptions C114_stopped_timer_never_fires_partial.
Print Assumptions C114_fires_once_per_After_partial.
Print Assumptions C114_armed_timers_are_held_partial.
Print Assumptions C114_due_timers_fire_partial.
Print Assumptions C114_deadline_order_refuted.
Print Assumptions C114_needs_serial_refuted.
Print Assumptions C114_heaps_first_refuted.
