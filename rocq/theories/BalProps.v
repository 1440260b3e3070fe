(** Theorems about balancers: C96 to C99. *)
From Coq Require Import List Bool Arith Lia.
Import ListNotations.
From Verif Require Import BalModel BalSpec BalProofs.

(** a state property kept by the allowed events keeps the observations it excludes away for ever *)
Lemma for_ever (Ev : ev -> Prop) (P : st -> Prop) (Ob : obs -> Prop) :
  (forall s e o s', P s -> Ev e -> step s e = (o, s') -> P s' /\ forall x, In x o -> Ob x) ->
  forall es s o s', P s -> (forall e, In e es -> Ev e) -> run s es = (o, s') -> P s' /\ forall x, In x o -> Ob x.
Proof.
  intro H. induction es as [|e es IH]; intros s o s' HP HE; cbn [run].
  - intro E. injection E as <- <-. split; [exact HP|intros x []].
  - destruct (step s e) as [o1 s1] eqn:E1. destruct (run s1 es) as [o2 s2] eqn:E2. intro E. injection E as <- <-.
    destruct (H s e o1 s1 HP (HE e (or_introl eq_refl)) E1) as [P1 O1]. destruct (IH s1 o2 s2 P1 (fun e' X => HE e' (or_intror X)) E2) as [P2 O2].
    split; [exact P2|]. intros x X. apply in_app_or in X. destruct X; [now apply O1|now apply O2].
Qed.
Ltac cases E := unfold step in E; repeat match type of E with context [match ?x with _ => _ end] => destruct x eqn:? end; injection E as <- <-.

Lemma step_cases s e o s' : step s e = (o, s') -> (o = [] /\ s' = s) \/ (lp s <> LCrash /\ step_live s e = (o, s')).
Proof. unfold step. destruct (lp s) eqn:L; intro E; try (right; split; [discriminate|exact E]). left. injection E as <- <-. now split. Qed.
(** ** C96: every child is run once *)
Theorem C96_run_once_partial es t s : start es = (t, s) -> serial t ->
  ~ In OCrash t /\ NoDup (starts t) /\ (quiet s -> In ORun t -> forall k c, In (OAdd k c) t -> In (OStart c) t).
Proof.
  intros E S. pose proof (start_inv _ _ _ E S) as I. split; [apply (vCr _ _ I)|]. split; [apply (vSn _ _ I)|]. intros Q R k c H.
  apply (quiet_starts _ _ I Q); [now apply (vRun _ _ I)|]. apply (vAd _ _ I k). now apply (quiet_added _ _ I Q).
Qed.
(** one goroutine calls Run and then AddChild: Loop finds the child running *)
Theorem C96_crash_refuted : exists es t s, start es = (t, s) /\ t = [ORun; OAdd 0 5; OStart 5; OAdded 0 5; OLoop; OCrash].
Proof. exists [Run; Add 0 5; Go 0; Go 0; Go 0; Go 0; Loop; Loop]. eexists. eexists. split; [vm_compute; reflexivity|reflexivity]. Qed.
(** the same calls: the child is run twice, two goroutines are in its loop *)
Theorem C96_twice_refuted : exists es t s, start es = (t, s) /\ t = [ORun; OAdd 0 5; OLoop; OStart 5; OAdded 0 5; OStart 5] /\ loops s 5 = 2.
Proof. exists [Run; Add 0 5; Go 0; Go 0; Loop; Loop; Go 0; Go 0; Loop]. eexists. eexists. split; [vm_compute; reflexivity|split; reflexivity]. Qed.
(** two goroutines call AddChild at once: one child is forgotten, whatever happens later *)
Definition absent (c : nat) (s : st) : Prop :=
  ~ In c (children s) /\ ~ In c (todo (lp s)) /\ forall k, adding (pcs s k) <> Some c /\ forall d l, pcs s k = AWrite d l -> ~ In c l.
Lemma absent_kept c s e o s' : absent c s -> (forall k, e <> Add k c) -> step s e = (o, s') -> absent c s' /\ forall x, In x o -> x <> OStart c.
Proof.
  intros (A & B & D) NE E.
  assert (PC : forall k p s1, children s1 = children s -> lp s1 = lp s -> pcs s1 = upd (pcs s) k p -> adding p <> Some c -> (forall d l, p = AWrite d l -> ~ In c l) -> absent c s1).
  { intros k p s1 E1 E2 E3 H1 H2. unfold absent. rewrite E1, E2, E3. split; [exact A|split; [exact B|]]. intro j. other j k N; [split; [exact H1|exact H2]|apply D]. }
  assert (LP : forall s1, children s1 = children s -> (forall x, In x (todo (lp s1)) -> In x (todo (lp s)) \/ In x (children s)) -> pcs s1 = pcs s -> absent c s1).
  { intros s1 E1 E2 E3. unfold absent. rewrite E1, E3. split; [exact A|split; [|exact D]]. intro H. apply E2 in H. tauto. }
  assert (ID : absent c s) by (split; [exact A|split; [exact B|exact D]]).
  assert (NO : forall o1 s1, (o1, s1) = (@nil obs, s) -> absent c s1 /\ forall x, In x o1 -> x <> OStart c) by (intros o1 s1 X; injection X as -> ->; split; [exact ID|intros x []]).
  destruct (step_cases _ _ _ _ E) as [[-> ->]|[_ E']]; [now apply NO|]. clear E. rename E' into E.
  destruct e as [|k d|k|r|d|k| |k| |d]; cbn [step_live] in E.
  - destruct (runned s); injection E as <- <-; (split; [first [exact ID|apply LP; try reflexivity; intros x []]|intros x [<-|[]]; discriminate]).
  - specialize (NE k). destruct (pcs s k) eqn:P; try (apply NO; unfold ok in E; congruence). injection E as <- <-. split; [|intros x [<-|[]]; discriminate].
    apply (PC k (ARead d)); try reflexivity; try discriminate. cbn. congruence.
  - destruct (pcs s k) eqn:P; try (apply NO; unfold ok in E; congruence). injection E as <- <-. split; [|intros x [<-|[]]; discriminate]. apply (PC k TClose); try reflexivity; discriminate.
  - destruct (runned s); injection E as <- <-; (split; [first [exact ID|apply LP; try reflexivity; intros x X; now left]|intros x [<-|[]]; discriminate]).
  - destruct (loops s d); injection E as <- <-; (split; [first [exact ID|apply LP; try reflexivity; intros x X; now left]|intros x X; cbn in X; intuition subst; discriminate]).
  - destruct (D k) as [D1 D2]. unfold step_go in E. destruct (pcs s k) as [|d|d l|d|d| | | |] eqn:P; try (apply NO; unfold ok in E; congruence).
    + injection E as <- <-. split; [|intros x []]. apply (PC k (AWrite d (children s))); try reflexivity; [exact D1|]. intros d0 l0 X. injection X as <- <-. exact A.
    + injection E as <- <-. split; [|intros x []]. split; [cbn; rewrite in_snoc; cbn in D1; intros [X|X]; [now apply (D2 d l eq_refl)|congruence]|]. split; [exact B|]. intro j. cbn. other j k N; [split; [exact D1|discriminate]|apply D].
    + destruct (runned s); injection E as <- <-; (split; [|intros x X; cbn in X; intuition subst; discriminate]); [apply (PC k (ARun d))|apply (PC k PEnd)]; try reflexivity; try exact D1; discriminate.
    + injection E as <- <-. cbn in D1. split; [|intros x X; cbn in X; intuition congruence]. apply (PC k PEnd); try reflexivity; discriminate.
    + destruct (runned s); [destruct (closed s)|]; injection E as <- <-; (split; [|intros x X; cbn in X; intuition subst; discriminate]); [apply (PC k PPanic)|apply (PC k TExit)|apply (PC k TExit)]; try reflexivity; discriminate.
  - unfold step_loop in E. destruct (lp s) as [| |l|d l| | |l|d l| |] eqn:L; try (apply NO; unfold ok in E; congruence); rewrite ?L in *; cbn [todo] in *.
    + injection E as <- <-. split; [apply LP; try reflexivity; cbn; tauto|intros x [<-|[]]; discriminate].
    + destruct l as [|d l]; [|destruct (crun s d)]; injection E as <- <-; (split; [apply LP; try reflexivity; cbn; tauto|intros x X; cbn in X; intuition subst; discriminate]).
    + injection E as <- <-. split; [apply LP; try reflexivity; cbn; tauto|]. intros x [<-|[]] X. injection X as ->. apply B. now left.
    + injection E as <- <-. split; [apply LP; try reflexivity; cbn; tauto|intros x []].
    + destruct l as [|d l]; injection E as <- <-; (split; [apply LP; try reflexivity; cbn; tauto|intros x [<-|[]]; discriminate]).
  - destruct (pcs s k) eqn:P; try (apply NO; unfold ok in E; congruence). destruct (lp s) eqn:L; try (apply NO; unfold ok in E; congruence).
    injection E as <- <-. split; [|intros x [<-|[]]; discriminate]. split; [exact A|split; [intros []|]]. intro j. cbn. other j k N; [split; discriminate|apply D].
  - destruct (lp s) as [| |l|d l| | |l|d l| |] eqn:L; try (apply NO; unfold ok in E; congruence). destruct (loops s d); [apply NO; unfold ok in E; congruence|].
    injection E as <- <-. split; [|intros x [<-|[]]; discriminate]. apply LP; try reflexivity. cbn. tauto.
  - destruct (loops s d); [apply NO; unfold ok in E; congruence|]. destruct (q s); [apply NO; unfold ok in E; congruence|].
    injection E as <- <-. split; [|intros x [<-|[]]; discriminate]. apply LP; try reflexivity. cbn. tauto.
Qed.
Theorem C96_lost_refuted : exists es t s, start es = (t, s) /\ In (OAdded 0 5) t /\ In ORun t /\ ~ In (OStart 5) t /\
  forall es' t' s', (forall k, ~ In (Add k 5) es') -> run s es' = (t', s') -> ~ In (OStart 5) t'.
Proof.
  exists [Add 0 5; Add 1 6; Go 0; Go 1; Go 0; Go 1; Go 0; Go 1; Run]. eexists. eexists. split; [vm_compute; reflexivity|]. split; [cbn; tauto|]. split; [cbn; tauto|].
  split; [cbn; intuition discriminate|]. intros es' t' s' N E X.
  assert (H : forall e, In e es' -> forall k, e <> Add k 5) by (intros e He k ->; now apply (N k)).
  match type of E with run ?s0 _ = _ => assert (A : absent 5 s0) end.
  { split; [cbn; intuition discriminate|]. split; [intros []|]. intro k. destruct k as [|[|k]]; cbn; split; discriminate. }
  destruct (for_ever (fun e => forall k, e <> Add k 5) (absent 5) (fun x => x <> OStart 5) (absent_kept 5) es' _ _ _ A H E) as [_ Y]. now apply Y in X.
Qed.

(** ** C97: stopping a balancer stops every child *)
Theorem C97_all_stopped_partial es t s : start es = (t, s) -> serial t -> stops_once t ->
  NoDup (halts t) /\ (quiet s -> forall k, In (OStop k) t -> In OEnd t /\ forall j c, In (OAdd j c) t -> In (OHalted c) t).
Proof.
  intros E S SO. destruct (start_both _ _ _ E S SO) as [I U]. split; [apply (uHn _ _ U)|]. intros Q k O.
  destruct (quiet_stops _ _ k I U Q O) as [_ L]. pose proof (uHg _ _ U) as G. unfold halting in G. rewrite L in G. destruct G as [G1 G2]. split; [exact G2|].
  intros j c H. apply G1. apply (vAd _ _ I j). now apply (quiet_added _ _ I Q).
Qed.
(** a child added when the balancer has stopped is run and never told to stop *)
Definition done_for (c : nat) (s : st) : Prop := runned s = true /\ lp s = LEnd /\ 1 <= loops s c.
Lemma done_kept c s e o s' : done_for c s -> e <> UStop c -> step s e = (o, s') -> done_for c s' /\ forall x, In x o -> x <> OHalt c /\ x <> OUStop c.
Proof.
  intros (R & L & G) NE E. unfold step in E. rewrite L in E.
  destruct e as [|k d|k|r|d|k| |k| |d]; cbn [step_live] in E; unfold step_go, step_loop in E; rewrite ?L, ?R in E.
  2,3,6,8: destruct (pcs s k) eqn:P.
  all: repeat match type of E with context [match ?x with _ => _ end] => destruct x eqn:? end; injection E as <- <-.
  all: split; [split; [cbn; trivial|split; cbn; trivial; try discriminate]|intros x X; cbn in X; intuition (subst; try discriminate)].
  all: try (unfold upd; match goal with |- context [?a =? ?b] => destruct (Nat.eqb_spec a b) end; subst; lia).
  all: try (rewrite upd_other by congruence; exact G); try congruence.
Qed.

Theorem C97_late_child_refuted : exists es t s, start es = (t, s) /\ serial t /\ In OEnd t /\ In (OAdded 2 6) t /\ In (OStart 6) t /\ ~ In (OHalt 6) t /\
  forall es' t' s', ~ In (UStop 6) es' -> run s es' = (t', s') -> ~ In (OHalt 6) t' /\ 1 <= loops s' 6.
Proof.
  exists [Add 0 5; Go 0; Go 0; Go 0; Run; Loop; Loop; Loop; Loop; Stop 1; Go 1; Exit 1; Loop; Loop; Take; Loop; Add 2 6; Go 2; Go 2; Go 2; Go 2]. eexists. eexists. split; [vm_compute; reflexivity|].
  split. { apply serialb_ok. vm_compute. reflexivity. }
  split; [cbn; tauto|]. split; [cbn; tauto|]. split; [cbn; tauto|]. split; [cbn; intuition discriminate|]. intros es' t' s' N E.
  assert (H : forall e, In e es' -> e <> UStop 6) by (intros e He ->; now apply N).
  match type of E with run ?s0 _ = _ => assert (A : done_for 6 s0) by (split; [reflexivity|split; [reflexivity|cbn; lia]]) end.
  destruct (for_ever (fun e => e <> UStop 6) (done_for 6) (fun x => x <> OHalt 6 /\ x <> OUStop 6) (done_kept 6) es' _ _ _ A H E) as [(_ & _ & Y1) Y2]. split; [|exact Y1].
  intro X. apply Y2 in X. destruct X. congruence.
Qed.
(** a child that somebody else has stopped keeps the balancer from stopping the others *)
Definition stuck (c : nat) (s : st) : Prop := runned s = true /\ (exists l, lp s = LSend c l) /\ loops s c = 0 /\ forall k, adding (pcs s k) <> Some c.
Lemma stuck_kept c s e o s' : stuck c s -> (forall k, e <> Add k c) -> step s e = (o, s') -> stuck c s' /\ forall x, In x o -> x <> OEnd /\ forall d, x <> OHalt d.
Proof.
  intros (R & [l L] & G & D) NE E. unfold step in E. rewrite L in E.
  assert (PC : forall k p s1, runned s1 = true -> lp s1 = lp s -> loops s1 c = 0 -> pcs s1 = upd (pcs s) k p -> adding p <> Some c -> stuck c s1).
  { intros k p s1 E1 E2 E3 E4 H. split; [exact E1|]. split; [exists l; congruence|]. split; [exact E3|]. intro j. rewrite E4. other j k N; [exact H|apply D]. }
  assert (ID : stuck c s) by (split; [exact R|split; [now exists l|now split]]).
  assert (NO : forall o1 s1, (o1, s1) = (@nil obs, s) -> stuck c s1 /\ forall x, In x o1 -> x <> OEnd /\ forall d, x <> OHalt d) by (intros o1 s1 X; injection X as -> ->; split; [exact ID|intros x []]).
  destruct e as [|k d|k|r|d|k| |k| |d]; cbn [step_live] in E.
  - rewrite R in E. injection E as <- <-. split; [exact ID|intros x [<-|[]]; split; discriminate].
  - specialize (NE k). destruct (pcs s k) eqn:P; try (apply NO; unfold ok in E; congruence). injection E as <- <-. split; [apply (PC k (ARead d)); trivial; cbn; congruence|intros x [<-|[]]; split; discriminate].
  - destruct (pcs s k) eqn:P; try (apply NO; unfold ok in E; congruence). injection E as <- <-. split; [apply (PC k TClose); trivial; discriminate|intros x [<-|[]]; split; discriminate].
  - rewrite R in E. injection E as <- <-. split; [exact ID|intros x [<-|[]]; split; discriminate].
  - destruct (loops s d) eqn:P; try (apply NO; unfold ok in E; congruence). injection E as <- <-. split; [|intros x [<-|[]]; split; discriminate].
    split; [exact R|split; [now exists l|split; [|exact D]]]. cbn. rewrite upd_other by congruence. exact G.
  - specialize (D k) as D1. unfold step_go in E. rewrite R in E. destruct (pcs s k) as [|d|d l'|d|d| | | |] eqn:P; try (apply NO; unfold ok in E; congruence).
    + injection E as <- <-. split; [now apply (PC k (AWrite d (children s)))|intros x []].
    + injection E as <- <-. split; [now apply (PC k (ATest d))|intros x []].
    + injection E as <- <-. split; [now apply (PC k (ARun d))|intros x []].
    + injection E as <- <-. cbn in D1. split; [apply (PC k PEnd); trivial; [|discriminate]; cbn; rewrite upd_other by congruence; exact G|intros x [<-|[<-|[]]]; split; discriminate].
    + destruct (closed s); injection E as <- <-; (split; [|intros x X; cbn in X; intuition (subst; discriminate)]); [apply (PC k PPanic)|apply (PC k TExit)]; trivial; discriminate.
  - unfold step_loop in E. rewrite L in E. now apply NO.
  - rewrite L in E. destruct (pcs s k); now apply NO.
  - rewrite L, G in E. now apply NO.
  - destruct (loops s d) eqn:P; [now apply NO|]. destruct (q s); [now apply NO|]. injection E as <- <-. split; [exact ID|intros x [<-|[]]; split; discriminate].
Qed.
Theorem C97_blocked_refuted : exists es t s, start es = (t, s) /\ serial t /\ In (OStart 6) t /\ In (OUStop 5) t /\ In (OStopped 1) t /\ ~ In (OHalt 6) t /\
  forall es' t' s', (forall k, ~ In (Add k 5) es') -> run s es' = (t', s') -> ~ In (OHalt 6) t' /\ ~ In OEnd t'.
Proof.
  exists [Add 0 5; Go 0; Go 0; Go 0; Add 2 6; Go 2; Go 2; Go 2; Run; Loop; Loop; Loop; Loop; Loop; Loop; UStop 5; Stop 1; Go 1; Exit 1; Loop; Loop]. eexists. eexists. split; [vm_compute; reflexivity|].
  split. { apply serialb_ok. vm_compute. reflexivity. }
  split; [cbn; tauto|]. split; [cbn; tauto|]. split; [cbn; tauto|]. split; [cbn; intuition discriminate|]. intros es' t' s' N E.
  assert (H : forall e, In e es' -> forall k, e <> Add k 5) by (intros e He k ->; now apply (N k)).
  match type of E with run ?s0 _ = _ => assert (A : stuck 5 s0) end.
  { split; [reflexivity|]. split; [now exists [6]|]. split; [reflexivity|]. intro k. destruct k as [|[|[|k]]]; discriminate. }
  destruct (for_ever (fun e => forall k, e <> Add k 5) (stuck 5) (fun x => x <> OEnd /\ forall d, x <> OHalt d) (stuck_kept 5) es' _ _ _ A H E) as [_ Y].
  split; intro X; apply Y in X; destruct X as [X1 X2]; [now apply (X2 6)|congruence].
Qed.

(** ** C98: Stop of an endpoint returns *)
Theorem C98_stop_returns_partial es t s : start es = (t, s) -> serial t -> stops_once t -> quiet s -> forall k, In (OStop k) t -> In (OStopped k) t.
Proof. intros E S SO Q k O. destruct (start_both _ _ _ E S SO) as [I U]. now apply (quiet_stops _ _ k I U Q O). Qed.
Theorem C98_bounded es t s : start es = (t, s) -> exists n, forall es', productive s es' -> length es' <= n.
Proof.
  intro E. destruct (run_below es s_init t s 0 (fun k _ => eq_refl) E) as [B HB]. destruct (some_room B s HB) as [M HM]. exists (rank B M s). intros es' P. now apply productive_bound.
Qed.
(** a second Stop panics *)
Theorem C98_second_stop_refuted : exists es t s, start es = (t, s) /\ t = [ORun; OLoop; OStop 0; OStopped 0; OEnd; OStop 1; OPanic 1].
Proof. exists [Run; Loop; Loop; Stop 0; Go 0; Exit 0; Loop; Loop; Stop 1; Go 1]. eexists. eexists. split; [vm_compute; reflexivity|reflexivity]. Qed.
(** Stop of an endpoint that was never run does not return *)
Theorem C98_not_run_refuted es t s : start es = (t, s) -> ~ In Run es -> forall k, ~ In (OStopped k) t.
Proof.
  intros E N k X. set (P := fun s => runned s = false /\ lp s = LNone). 
  assert (K : forall s e o s', P s -> e <> Run -> step s e = (o, s') -> P s' /\ forall x, In x o -> forall k, x <> OStopped k).
  { clear. intros s e o s' [R L] NE E. unfold step in E. rewrite L in E. destruct e as [|k d|k|r|d|k| |k| |d]; cbn [step_live] in E; unfold step_go, step_loop in E; rewrite ?L, ?R in E;
      repeat match type of E with context [match ?x with _ => _ end] => destruct x eqn:? end; injection E as <- <-; (split; [split; trivial; try congruence|intros x X; cbn in X; intuition (subst; discriminate)]). }
  assert (H : forall e, In e es -> e <> Run) by (intros e He ->; now apply N).
  destruct (for_ever (fun e => e <> Run) P (fun x => forall k, x <> OStopped k) K es s_init t s (conj eq_refl eq_refl) H E) as [_ Y]. now apply (Y _ X k).
Qed.

(** ** C99: requests are shared out *)
(** each accepted request goes to at most one child, in the order of Send *)
Theorem C99_shared es t s : start es = (t, s) -> exists left, sent t = taken t ++ left.
Proof. intro E. exists (q s). exact (start_queue es t s E). Qed.
(** ... and to one as long as the balancer runs and has a child *)
Theorem C99_all_taken_partial es t s : start es = (t, s) -> serial t -> stops_once t -> (forall k, ~ In (OStop k) t) -> In ORun t -> (exists k c, In (OAdd k c) t) ->
  quiet s -> (forall c, step s (Recv c) = ([], s)) -> taken t = sent t.
Proof.
  intros E S SO NS R (k & c & H) Q QR. destruct (start_both _ _ _ E S SO) as [I U]. rewrite (start_queue _ _ _ E).
  destruct (C96_run_once_partial _ _ _ E S) as (_ & _ & ST). specialize (ST Q R k c H).
  assert (NH : forall c, ~ In (OHalted c) t).
  { intros d X. apply (uHd _ _ U) in X. pose proof (uHg _ _ U) as G. unfold halting in G. destruct (lp s) eqn:L; try (now apply G in X); destruct (uFin _ _ U) as [j Y]; try (rewrite L; exact Logic.I); now apply NS in Y. }
  destruct (uLo _ _ U c ST) as [X|X]; [now apply NH in X|]. specialize (QR c). unfold step in QR. destruct (vCr _ _ I) as [NC _].
  assert (Z : step_live s (Recv c) = ([], s)) by (destruct (lp s); try exact QR; congruence). cbn [step_live] in Z. destruct (loops s c); [lia|]. destruct (q s); [now rewrite app_nil_r|discriminate Z].
Qed.
(** a request that was sent before Stop may stay in the queue for ever *)
Definition over (s : st) : Prop := runned s = true /\ lp s = LEnd /\ (forall c, loops s c = 0) /\ idle s.
Lemma over_kept s e o s' : over s -> (forall k c, e <> Add k c) -> step s e = (o, s') -> over s' /\ forall x, In x o -> forall c r, x <> OTake c r.
Proof.
  intros (R & L & G & D) NE E. unfold step in E. rewrite L in E.
  assert (PC : forall k p s1, runned s1 = true -> lp s1 = lp s -> loops s1 = loops s -> pcs s1 = upd (pcs s) k p -> adding p = None -> over s1).
  { intros k p s1 E1 E2 E3 E4 H. split; [exact E1|]. split; [congruence|]. split; [now rewrite E3|]. intro j. rewrite E4. other j k N; [exact H|apply D]. }
  assert (ID : over s) by (split; [exact R|split; [exact L|now split]]).
  assert (NO : forall o1 s1, (o1, s1) = (@nil obs, s) -> over s1 /\ forall x, In x o1 -> forall c r, x <> OTake c r) by (intros o1 s1 X; injection X as -> ->; split; [exact ID|intros x []]).
  destruct e as [|k d|k|r|d|k| |k| |d]; cbn [step_live] in E.
  - rewrite R in E. injection E as <- <-. split; [exact ID|intros x [<-|[]]; discriminate].
  - now specialize (NE k d).
  - destruct (pcs s k) eqn:P; try (apply NO; unfold ok in E; congruence). injection E as <- <-. split; [now apply (PC k TClose)|intros x [<-|[]]; discriminate].
  - rewrite R in E. injection E as <- <-. split; [exact ID|intros x [<-|[]]; discriminate].
  - rewrite G in E. now apply NO.
  - specialize (D k) as D1. unfold step_go in E. rewrite R in E. destruct (pcs s k) as [|d|d l'|d|d| | | |] eqn:P; try (apply NO; unfold ok in E; congruence); try discriminate D1.
    destruct (closed s); injection E as <- <-; (split; [|intros x X; cbn in X; intuition (subst; discriminate)]); [now apply (PC k PPanic)|now apply (PC k TExit)].
  - unfold step_loop in E. rewrite L in E. now apply NO.
  - rewrite L in E. destruct (pcs s k); now apply NO.
  - rewrite L in E. now apply NO.
  - rewrite G in E. now apply NO.
Qed.
Theorem C99_left_refuted : exists es t s t1 t2, start es = (t, s) /\ serial t /\ stops_once t /\ t = t1 ++ OStop 1 :: t2 /\ In (OSent 7) t1 /\ (forall c, ~ In (OTake c 7) t) /\
  forall es' t' s', (forall k c, ~ In (Add k c) es') -> run s es' = (t', s') -> forall c, ~ In (OTake c 7) t'.
Proof.
  exists [Add 0 5; Go 0; Go 0; Go 0; Run; Loop; Loop; Loop; Loop; Send 7; Stop 1; Go 1; Exit 1; Loop; Loop; Take; Loop]. eexists. eexists. exists [OAdd 0 5; OAdded 0 5; ORun; OLoop; OStart 5; OSent 7], [OStopped 1; OHalt 5; OHalted 5; OEnd].
  split; [vm_compute; reflexivity|]. split. { apply serialb_ok. vm_compute. reflexivity. } split. { apply stopsb_ok. vm_compute. reflexivity. }
  split; [reflexivity|]. split; [cbn; tauto|]. split; [intro c; cbn; intuition discriminate|]. intros es' t' s' N E c X.
  assert (H : forall e, In e es' -> forall k d, e <> Add k d) by (intros e He k d ->; now apply (N k d)).
  match type of E with run ?s0 _ = _ => assert (A : over s0) end.
  { split; [reflexivity|]. split; [reflexivity|]. split; [intro d; do 6 (destruct d as [|d]; [reflexivity|]); reflexivity|]. intro k. destruct k as [|[|k]]; reflexivity. }
  destruct (for_ever (fun e => forall k d, e <> Add k d) over (fun x => forall c r, x <> OTake c r) over_kept es' _ _ _ A H E) as [_ Y]. now apply (Y _ X c 7).
Qed.

(** ** A concrete case *)
(** a child before Run, one while the balancer runs, three requests, Stop *)
Definition sample : list ev := [Add 0 5; Go 0; Go 0; Go 0; Run; Loop; Loop; Loop; Loop; Send 1; Send 2; Recv 5; Add 1 6; Go 1; Go 1; Go 1; Go 1; Send 3; Recv 6; Recv 5].
Definition sample_stop : list ev := [Stop 2; Go 2; Exit 2; Loop; Loop; Take; Loop; Take; Loop].
Example C96_ex : fst (start (sample ++ sample_stop)) = [OAdd 0 5; OAdded 0 5; ORun; OLoop; OStart 5; OSent 1; OSent 2; OTake 5 1; OAdd 1 6; OStart 6; OAdded 1 6; OSent 3; OTake 6 2; OTake 5 3; OStop 2; OStopped 2; OHalt 5; OHalted 5; OHalt 6; OHalted 6; OEnd]
  /\ serial (fst (start (sample ++ sample_stop))) /\ stops_once (fst (start (sample ++ sample_stop))).
Proof. split; [vm_compute; reflexivity|]. split; [apply serialb_ok|apply stopsb_ok]; vm_compute; reflexivity. Qed.
Lemma ends_quiet s : (forall k, pcs s k = PNew \/ pcs s k = PEnd) -> lp s = LEnd \/ lp s = LWait -> quiet s.
Proof.
  intros P L e H. assert (E : step_live s e = ([], s)); [|unfold step; destruct (lp s); try exact E; reflexivity].
  destruct e as [|k d|k|r|d|k| |k| |d]; try destruct H; cbn [step_live]; unfold step_go, step_loop; try (destruct (P k) as [X|X]; rewrite X; reflexivity); destruct L as [X|X]; rewrite X; reflexivity.
Qed.
Example C97_ex : quiet (snd (start (sample ++ sample_stop))).
Proof. apply ends_quiet; [|left; reflexivity]. intro k. destruct k as [|[|[|k]]]; vm_compute; tauto. Qed.
Example C99_ex : quiet (snd (start sample)) /\ (forall c, step (snd (start sample)) (Recv c) = ([], snd (start sample))) /\ serial (fst (start sample)) /\ stops_once (fst (start sample)) /\ taken (fst (start sample)) = [1; 2; 3].
Proof.
  split; [apply ends_quiet; [|right; reflexivity]; intro k; destruct k as [|[|[|k]]]; vm_compute; tauto|]. split.
  - intro c. unfold step. cbn [lp snd start]. replace (lp (snd (start sample))) with LWait by reflexivity. cbn [step_live]. replace (q (snd (start sample))) with (@nil nat) by reflexivity. now destruct (loops (snd (start sample)) c).
  - split; [apply serialb_ok; vm_compute; reflexivity|]. split; [apply stopsb_ok; vm_compute; reflexivity|reflexivity].
Qed.

Print Assumptions C96_run_once_partial.
Print Assumptions C96_crash_refuted.
Print Assumptions C96_twice_refuted.
Print Assumptions C96_lost_refuted.
Print Assumptions C97_all_stopped_partial.
Print Assumptions C97_late_child_refuted.
Print Assumptions C97_blocked_refuted.
Print Assumptions C98_stop_returns_partial.
Print Assumptions C98_bounded.
Print Assumptions C98_second_stop_refuted.
Print Assumptions C98_not_run_refuted.
Print Assumptions C99_shared.
Print Assumptions C99_all_taken_partial.
Print Assumptions C99_left_refuted.
