(** C153: a tree of balancers is started and stopped as one. *)
From Coq Require Import List Bool Arith Lia.
Import ListNotations.
From Verif Require Import NestModel NestSpec.

Lemma tree_ind' : forall P : tree -> Prop, (forall ch s, P (Leaf ch s)) -> (forall ch p cs, Forall P cs -> P (Bal ch p cs)) -> forall t, P t.
Proof.
  intros P HL HB. fix IH 1. intros [ch s|ch p cs]; [apply HL|]. apply HB. induction cs as [|c cs IHc]; constructor; [apply IH|exact IHc].
Qed.
Lemma all_bal : forall P Q ch p cs, all P Q (Bal ch p cs) <-> Q ch p /\ Forall (all P Q) cs.
Proof.
  intros P Q ch p cs. cbn [all]. assert (E : forall l, (fix go (cs : list tree) : Prop := match cs with [] => True | c :: cs => all P Q c /\ go cs end) l <-> Forall (all P Q) l).
  { induction l as [|c l IH]; [split; auto|]. split; [intros [A B]; constructor; [exact A|now apply IH]|intros A; inversion A; subst; split; [assumption|now apply IH]]. }
  rewrite E. reflexivity.
Qed.

(** ** not run, running, told to stop *)
Inductive fr : tree -> Prop :=
| FLeaf : fr (Leaf None LNew)
| FBal cs : Forall fr cs -> fr (Bal None New cs).
Inductive up : tree -> Prop :=
| ULeaf : up (Leaf (Some 0) LRun)
| UStart a b : Forall up a -> Forall fr b -> up (Bal (Some 0) (Starting (length a)) (a ++ b))
| UWait cs : Forall up cs -> up (Bal (Some 0) Waiting cs).
Inductive told : tree -> Prop :=
| TLeaf : told (Leaf (Some 0) LEnd)
| TStop a b : Forall told a -> Forall up b -> told (Bal (Some 0) (Stopping (length a)) (a ++ b))
| TEnd cs : Forall told cs -> told (Bal (Some 0) Ended cs).

Lemma fresh_fr : forall t, fresh t -> fr t.
Proof.
  induction t as [ch s|ch p cs IH] using tree_ind'; intros H.
  - destruct H as [-> ->]. constructor.
  - unfold fresh in H. apply all_bal in H as [[-> ->] H]. constructor. rewrite Forall_forall in *. intros x X. exact (IH x X (H x X)).
Qed.
Lemma split_eq : forall {A} (a' b' a b : list A) x, a' ++ b' = a ++ x :: b ->
  (exists a2, a' = a ++ x :: a2 /\ b = a2 ++ b') \/ (exists b1, b' = b1 ++ x :: b /\ a = a' ++ b1).
Proof.
  intros A a'. induction a' as [|y a' IH]; intros b' a b x E; cbn in E; [right; exists a; auto|].
  destruct a as [|z a]; cbn in E; injection E as <- E.
  - left. exists a'. auto.
  - destruct (IH _ _ _ _ E) as [(a2 & -> & ->)|(b1 & -> & ->)]; [left; exists a2|right; exists b1]; auto.
Qed.
Lemma app_same : forall {A} (a' b' a b : list A), length a' = length a -> a' ++ b' = a ++ b -> a' = a /\ b' = b.
Proof.
  intros A a'. induction a' as [|y a' IH]; intros b' [|z a] b L E; cbn in *; try discriminate; [auto|]. injection E as -> E. injection L as L. destruct (IH _ _ _ L E). subst. auto.
Qed.
Lemma fr_runned : forall t, fr t -> runned t = false.
Proof. intros t H. inversion H; reflexivity. Qed.
Lemma up_runned : forall t, up t -> runned t = true.
Proof. intros t H. inversion H; reflexivity. Qed.
Lemma start_up : forall t, fr t -> up (start (Some 0) t).
Proof. intros t H. inversion H as [|cs F]; subst; cbn; [constructor|]. exact (UStart [] cs (Forall_nil _) F). Qed.
Lemma take_told : forall t t', up t -> take t = Some t' -> told t'.
Proof.
  intros t t' H E. inversion H as [|a b A B|cs F]; subst; cbn in E; try discriminate; injection E as <-; [constructor|]. exact (TStop [] cs (Forall_nil _) F).
Qed.
Lemma Forall_put : forall {A} (P : A -> Prop) a x x' b, Forall P (a ++ x :: b) -> P x' -> Forall P (a ++ x' :: b).
Proof. intros A P a x x' b H X. apply Forall_app in H as [H1 H2]. inversion H2; subst. apply Forall_app. split; auto. Qed.

Lemma step_kinds : forall t t', step t t' -> ~ fr t /\ (up t -> up t') /\ (told t -> told t').
Proof.
  induction 1 as [ch p a x x' b ST (N & U & T)|ch a x b R|ch a x b R|ch cs|ch a x x' b TK|ch cs].
  - assert (SA : forall l1 l2, length (l1 ++ x :: l2) = length (l1 ++ x' :: l2)) by (intros; rewrite !app_length; reflexivity). split; [|split].
    + intros F. inversion F as [|cs G]; subst. apply N. rewrite Forall_forall in G. apply G, in_elt.
    + intros F. inversion F as [|a' b' A B|cs G]; subst.
      * match goal with E : a' ++ b' = _ |- _ => destruct (split_eq _ _ _ _ _ E) as [(a2 & -> & ->)|(b1 & -> & ->)] end.
        -- rewrite SA. change (a ++ x' :: a2 ++ b') with (a ++ (x' :: a2) ++ b'). rewrite app_assoc. apply UStart; [|exact B]. apply (Forall_put _ _ x); [exact A|]. apply U.
           rewrite Forall_forall in A. apply A, in_elt.
        -- destruct N. rewrite Forall_forall in B. apply B, in_elt.
      * constructor. apply (Forall_put _ _ x); [exact G|]. apply U. rewrite Forall_forall in G. apply G, in_elt.
    + intros F. inversion F as [|a' b' A B|cs G]; subst.
      * match goal with E : a' ++ b' = _ |- _ => destruct (split_eq _ _ _ _ _ E) as [(a2 & -> & ->)|(b1 & -> & ->)] end.
        -- rewrite SA. change (a ++ x' :: a2 ++ b') with (a ++ (x' :: a2) ++ b'). rewrite app_assoc. apply TStop; [|exact B]. apply (Forall_put _ _ x); [exact A|]. apply T.
           rewrite Forall_forall in A. apply A, in_elt.
        -- rewrite <- app_assoc. apply TStop; [exact A|]. apply (Forall_put _ _ x); [exact B|]. apply U. rewrite Forall_forall in B. apply B, in_elt.
      * constructor. apply (Forall_put _ _ x); [exact G|]. apply T. rewrite Forall_forall in G. apply G, in_elt.
  - split; [intros F; inversion F|]. split; [|intros F; inversion F]. intros F. inversion F as [|a' b' A B|cs G]; subst.
    destruct (app_same a' b' a (x :: b)) as [-> ->]; [assumption..|]. inversion B as [|? ? B1 B2]; subst.
    change (a ++ start (Some 0) x :: b) with (a ++ [start (Some 0) x] ++ b). rewrite app_assoc. replace (S (length a)) with (length (a ++ [start (Some 0) x])) by (rewrite app_length; cbn; lia).
    apply UStart; [|exact B2]. apply Forall_app. split; [exact A|]. constructor; [now apply start_up|constructor].
  - split; [intros F; inversion F|]. split; [|intros F; inversion F]. intros F. inversion F as [|a' b' A B|cs G]; subst.
    destruct (app_same a' b' a (x :: b)) as [-> ->]; [assumption..|]. inversion B as [|? ? B1 B2]; subst. rewrite (fr_runned _ B1) in R. discriminate.
  - split; [intros F; inversion F|]. split; [|intros F; inversion F]. intros F. inversion F as [|a' b' A B|cs' G]; subst.
    destruct (app_same a' b' (a' ++ b') []) as [E ->]; [assumption|now rewrite app_nil_r|]. rewrite app_nil_r. now constructor.
  - split; [intros F; inversion F|]. split; [intros F; inversion F|]. intros F. inversion F as [|a' b' A B|cs G]; subst.
    destruct (app_same a' b' a (x :: b)) as [-> ->]; [assumption..|]. inversion B as [|? ? B1 B2]; subst.
    change (a ++ x' :: b) with (a ++ [x'] ++ b). rewrite app_assoc. replace (S (length a)) with (length (a ++ [x'])) by (rewrite app_length; cbn; lia).
    apply TStop; [|exact B2]. apply Forall_app. split; [exact A|]. constructor; [eapply take_told; eauto|constructor].
  - split; [intros F; inversion F|]. split; [intros F; inversion F|]. intros F. inversion F as [|a' b' A B|cs' G]; subst.
    destruct (app_same a' b' (a' ++ b') []) as [E ->]; [assumption|now rewrite app_nil_r|]. rewrite app_nil_r. now constructor.
Qed.
Lemma add_kinds : forall y t t', fr y -> add y t t' -> (fr t -> fr t') /\ (up t -> up t') /\ (told t -> told t').
Proof.
  intros y t t' Y. induction 1 as [ch p a x x' b ST (N & U & T)|cs|k cs].
  - assert (SA : forall l1 l2, length (l1 ++ x :: l2) = length (l1 ++ x' :: l2)) by (intros; rewrite !app_length; reflexivity). split; [|split].
    + intros F. inversion F as [|cs G]; subst. constructor. apply (Forall_put _ _ x); [exact G|]. apply N. rewrite Forall_forall in G. apply G, in_elt.
    + intros F. inversion F as [|a' b' A B|cs G]; subst.
      * match goal with E : a' ++ b' = _ |- _ => destruct (split_eq _ _ _ _ _ E) as [(a2 & -> & ->)|(b1 & -> & ->)] end.
        -- rewrite SA. change (a ++ x' :: a2 ++ b') with (a ++ (x' :: a2) ++ b'). rewrite app_assoc. apply UStart; [|exact B]. apply (Forall_put _ _ x); [exact A|]. apply U.
           rewrite Forall_forall in A. apply A, in_elt.
        -- rewrite <- app_assoc. apply UStart; [exact A|]. apply (Forall_put _ _ x); [exact B|]. apply N. rewrite Forall_forall in B. apply B, in_elt.
      * constructor. apply (Forall_put _ _ x); [exact G|]. apply U. rewrite Forall_forall in G. apply G, in_elt.
    + intros F. inversion F as [|a' b' A B|cs G]; subst.
      * match goal with E : a' ++ b' = _ |- _ => destruct (split_eq _ _ _ _ _ E) as [(a2 & -> & ->)|(b1 & -> & ->)] end.
        -- rewrite SA. change (a ++ x' :: a2 ++ b') with (a ++ (x' :: a2) ++ b'). rewrite app_assoc. apply TStop; [|exact B]. apply (Forall_put _ _ x); [exact A|]. apply T.
           rewrite Forall_forall in A. apply A, in_elt.
        -- rewrite <- app_assoc. apply TStop; [exact A|]. apply (Forall_put _ _ x); [exact B|]. apply U. rewrite Forall_forall in B. apply B, in_elt.
      * constructor. apply (Forall_put _ _ x); [exact G|]. apply T. rewrite Forall_forall in G. apply G, in_elt.
  - split; [|split]; intros F; [|inversion F|inversion F]. inversion F as [|cs' G]; subst. constructor. apply Forall_app. auto.
  - split; [|split]; intros F; [inversion F| |inversion F]. inversion F as [| |cs' G]; subst. constructor. apply Forall_app. split; [exact G|]. constructor; [now apply start_up|constructor].
Qed.
Definition kind (s : st) : Prop := match user s with UNew => fr (root s) | URan | UStop => up (root s) | UDone => told (root s) end.
Lemma kind_reachable : forall t s, fresh t -> reachable t s -> kind s.
Proof.
  intros t s F R. induction R as [|s s' R IH M|s y t' R IH Y M]; [exact (fresh_fr t F)| |].
  2:{ unfold kind in *. cbn [user root]. destruct (add_kinds y _ _ (fresh_fr y Y) M) as (K1 & K2 & K3). destruct (user s); auto. }
  unfold kind in *. destruct M as [t1 N|t1|t1 t2 N|t1 t2 u N]; cbn [user root] in *.
  - now apply start_up.
  - exact IH.
  - eapply take_told; eauto.
  - destruct (step_kinds _ _ N) as (K1 & K2 & K3). destruct u; [contradiction|auto..].
Qed.

(** ** what rest looks like *)
Lemma rest_in : forall ch p cs x, (forall t', ~ step (Bal ch p cs) t') -> In x cs -> forall x', ~ step x x'.
Proof. intros ch p cs x N I x' S. apply in_split in I as (a & b & ->). exact (N _ (SIn ch p a x x' b S)). Qed.
Lemma rest_up : forall t, up t -> (forall t', ~ step t t') -> running t.
Proof.
  induction t as [ch s|ch p cs IH] using tree_ind'; intros U N.
  - inversion U. split; reflexivity.
  - inversion U as [|a b A B|cs' G]; subst.
    + exfalso. destruct b as [|x b].
      * rewrite app_nil_r in N. exact (N _ (SUp _ _)).
      * inversion B as [|? ? B1 B2]; subst. exact (N _ (SStart _ a x b (fr_runned _ B1))).
    + apply all_bal. split; [auto|]. rewrite Forall_forall in *. intros x X. exact (IH x X (G x X) (rest_in _ _ _ _ N X)).
Qed.
Lemma running_take : forall t, running t -> take t <> None.
Proof.
  intros [ch s|ch p cs] H.
  - destruct H as [_ ->]. discriminate.
  - apply all_bal in H as [[_ ->] _]. discriminate.
Qed.
Lemma rest_told : forall t, told t -> (forall t', ~ step t t') -> ended t.
Proof.
  induction t as [ch s|ch p cs IH] using tree_ind'; intros U N.
  - inversion U. reflexivity.
  - inversion U as [|a b A B|cs' G]; subst.
    + exfalso. destruct b as [|x b].
      * rewrite app_nil_r in N. exact (N _ (SEnd _ _)).
      * inversion B as [|? ? B1 B2]; subst. destruct (take x) as [x'|] eqn:E; [exact (N _ (SStop _ a x x' b E))|].
        apply (running_take x); [|exact E]. apply rest_up; [exact B1|]. exact (rest_in _ _ _ _ N (in_elt _ _ _)).
    + apply all_bal. split; [auto|]. rewrite Forall_forall in *. intros x X. exact (IH x X (G x X) (rest_in _ _ _ _ N X)).
Qed.

(** For every tree and schedule: no loop panics, and what was run takes its requests from the channel of the root. *)
Lemma fr_ok : forall t, fr t -> sound t /\ one_channel t.
Proof.
  induction t as [ch s|ch p cs IH] using tree_ind'; intros U; inversion U as [|cs' G]; subst.
  - split; cbn; auto; congruence.
  - rewrite Forall_forall in *. split; apply all_bal; (split; [congruence|]); apply Forall_forall; intros x X; now apply IH, G.
Qed.
Lemma up_ok : forall t, up t -> sound t /\ one_channel t.
Proof.
  induction t as [ch s|ch p cs IH] using tree_ind'; intros U; inversion U as [|a b A B|cs' G]; subst.
  - split; cbn; auto.
  - rewrite Forall_forall in *. split; apply all_bal; (split; [congruence|]); apply Forall_forall; intros x X; pose proof X as X0; apply in_app_iff in X as [X|X].
    + now apply IH, A. + now apply fr_ok, B. + now apply IH, A. + now apply fr_ok, B.
  - rewrite Forall_forall in *. split; apply all_bal; (split; [congruence|]); apply Forall_forall; intros x X; now apply IH, G.
Qed.
Lemma told_ok : forall t, told t -> sound t /\ one_channel t.
Proof.
  induction t as [ch s|ch p cs IH] using tree_ind'; intros U; inversion U as [|a b A B|cs' G]; subst.
  - split; cbn; auto.
  - rewrite Forall_forall in *. split; apply all_bal; (split; [congruence|]); apply Forall_forall; intros x X; pose proof X as X0; apply in_app_iff in X as [X|X].
    + now apply IH, A. + now apply up_ok, B. + now apply IH, A. + now apply up_ok, B.
  - rewrite Forall_forall in *. split; apply all_bal; (split; [congruence|]); apply Forall_forall; intros x X; now apply IH, G.
Qed.
Theorem C153_sound_on_one_channel : forall t s, fresh t -> reachable t s -> sound (root s) /\ one_channel (root s).
Proof.
  intros t s F R. pose proof (kind_reachable t s F R) as K. unfold kind in K. destruct (user s); [apply fr_ok|apply up_ok|apply up_ok|apply told_ok]; exact K.
Qed.
(** After Run, when nothing more happens by itself, everything in the tree runs. *)
Theorem C153_run_starts_all : forall t s, fresh t -> reachable t s -> user s = URan -> at_rest s -> running (root s).
Proof.
  intros t s F R U [N _]. pose proof (kind_reachable t s F R) as K. unfold kind in K. rewrite U in K. now apply rest_up.
Qed.
(** After Stop was called, when nothing more happens by itself, it has returned and every loop in the tree has ended. *)
Theorem C153_stop_ends_all : forall t s, fresh t -> reachable t s -> user s = UStop \/ user s = UDone -> at_rest s -> user s = UDone /\ ended (root s).
Proof.
  intros t s F R U [N W]. pose proof (kind_reachable t s F R) as K. unfold kind in K. destruct U as [U|U]; rewrite U in *.
  - exfalso. exact (running_take _ (rest_up _ K N) (W eq_refl)).
  - split; [reflexivity|]. now apply rest_told.
Qed.

(** ** and it comes to that *)
Fixpoint mu (t : tree) : nat :=
  match t with
  | Leaf _ s => match s with LNew => 2 | LRun => 1 | LEnd => 0 end
  | Bal _ p cs => (match p with New => 4 | Starting _ => 3 | Waiting => 2 | Stopping _ => 1 | Ended | Crashed => 0 end) +
      (fix go (cs : list tree) : nat := match cs with [] => 0 | c :: cs => mu c + go cs end) cs
  end.
Definition mus (cs : list tree) : nat := list_sum (map mu cs).
Lemma mu_bal : forall ch p cs, mu (Bal ch p cs) = (match p with New => 4 | Starting _ => 3 | Waiting => 2 | Stopping _ => 1 | Ended | Crashed => 0 end) + mus cs.
Proof. intros. cbn [mu]. f_equal. unfold mus. induction cs as [|c cs IH]; [reflexivity|]. cbn. now rewrite IH. Qed.
Lemma mus_mid : forall a x b, mus (a ++ x :: b) = mu x + (mus a + mus b).
Proof. intros. unfold mus. rewrite map_app, list_sum_app. cbn [map list_sum fold_right]. change (fold_right plus 0 (map mu b)) with (list_sum (map mu b)). lia. Qed.
Definition sane (t : tree) : Prop := fr t \/ up t \/ told t.
Lemma take_mu : forall t t', take t = Some t' -> mu t' < mu t.
Proof. intros [ch []|ch [] cs] t' E; cbn in E; try discriminate; injection E as <-; rewrite ?mu_bal; cbn; lia. Qed.
Lemma start_mu : forall ch t, fr t -> mu (start ch t) < mu t.
Proof. intros ch t F. inversion F; subst; cbn [start]; rewrite ?mu_bal; cbn; lia. Qed.
Lemma step_mu : forall t t', step t t' -> sane t -> mu t' < mu t.
Proof.
  induction 1 as [ch p a x x' b ST IH|ch a x b R|ch a x b R|ch cs|ch a x x' b TK|ch cs]; intros SA; rewrite ?mu_bal, ?mus_mid; try lia.
  - assert (SX : sane x); [|specialize (IH SX); lia]. destruct SA as [F|[F|F]].
    + inversion F as [|cs' G]; subst. rewrite Forall_forall in G. left. apply G, in_elt.
    + inversion F as [|a' b' A B|cs G]; subst.
      * assert (I : In x (a' ++ b')) by (match goal with E : a' ++ b' = _ |- _ => rewrite E end; apply in_elt). rewrite Forall_forall in *.
        apply in_app_iff in I as [I|I]; [right; left; auto|left; auto].
      * rewrite Forall_forall in G. right; left. apply G, in_elt.
    + inversion F as [|a' b' A B|cs G]; subst.
      * assert (I : In x (a' ++ b')) by (match goal with E : a' ++ b' = _ |- _ => rewrite E end; apply in_elt). rewrite Forall_forall in *.
        apply in_app_iff in I as [I|I]; right; [right; auto|left; auto].
      * rewrite Forall_forall in G. right; right. apply G, in_elt.
  - assert (SX : fr x); [|pose proof (start_mu ch x SX); lia]. destruct SA as [F|[F|F]]; [inversion F| |inversion F]. inversion F as [|a' b' A B|cs G]; subst.
    destruct (app_same a' b' a (x :: b)) as [-> ->]; [assumption..|]. inversion B; assumption.
  - pose proof (take_mu _ _ TK). lia.
Qed.
Lemma sane_step : forall t t', step t t' -> sane t -> sane t'.
Proof. intros t t' S [F|[F|F]]; destruct (step_kinds _ _ S) as (K1 & K2 & K3); [contradiction|right; left; auto|right; right; auto]. Qed.
Lemma mu_size : forall t, mu t <= 4 * size t.
Proof.
  induction t as [ch s|ch p cs IH] using tree_ind'; [destruct s; cbn; lia|]. rewrite mu_bal. cbn [size].
  assert (E : mus cs <= 4 * (fix go (cs : list tree) : nat := match cs with [] => 0 | c :: cs => size c + go cs end) cs).
  { unfold mus. induction IH as [|c cs H _ IHc]; [cbn; lia|].
    change (list_sum (map mu (c :: cs))) with (mu c + list_sum (map mu cs)). cbv beta in H. lia. }
  destruct p; lia.
Qed.
(** For every tree and state: at most 4 moves per endpoint, then there is rest. *)
Theorem C153_comes_to_rest : forall t s n s', fresh t -> reachable t s -> works n s s' -> n <= 4 * size (root s).
Proof.
  intros t s n s' F R W. assert (K : match user s with UStop => up (root s) | _ => sane (root s) end).
  { pose proof (kind_reachable t s F R) as K. unfold kind, sane in *. destruct (user s); auto. }
  clear F R. apply Nat.le_trans with (mu (root s)); [|apply mu_size]. induction W as [s|n t1 t2 u s S W IH|n t1 t2 s T W IH]; cbn [root user] in *; [lia| |].
  - assert (SA : sane t1) by (destruct u; auto; right; left; exact K). pose proof (step_mu _ _ S SA).
    assert (K2 : match u with UStop => up t2 | _ => sane t2 end) by (destruct u; try (eapply sane_step; eauto; fail); destruct (step_kinds _ _ S) as (_ & KK & _); auto).
    specialize (IH K2). lia.
  - pose proof (take_mu _ _ T). assert (K2 : sane t2) by (right; right; eapply take_told; eauto). specialize (IH K2). lia.
Qed.

(** ** Examples *)
Definition leaf := Leaf None LNew.
Definition bal cs := Bal None New cs.
Definition some_tree := bal [leaf; bal [leaf; bal []]; leaf].
Example C153_tree : fresh some_tree /\ size some_tree = 6.
Proof. cbn. repeat split; reflexivity. Qed.
(** a balancer with one leaf: run, stopped while it still starts, and ended *)
Example C153_run : exists s, reachable (bal [leaf]) s /\ user s = UDone /\ at_rest s /\ ended (root s).
Proof.
  exists (mkSt (Bal (Some 0) Ended [Leaf (Some 0) LEnd]) UDone). split; [|split; [reflexivity|split; [|cbn; auto]]].
  - eapply r_move; [|apply MStep, (SEnd (Some 0) [Leaf (Some 0) LEnd])]. eapply r_move; [|apply MStep, (SStop (Some 0) [] (Leaf (Some 0) LRun) (Leaf (Some 0) LEnd) [] eq_refl)].
    eapply r_move; [|apply (MTake (Bal (Some 0) Waiting [Leaf (Some 0) LRun])); reflexivity]. eapply r_move; [|apply MStep, (SUp (Some 0) [Leaf (Some 0) LRun])].
    eapply r_move; [|apply MStep, (SStart (Some 0) [] leaf [] eq_refl)]. eapply r_move; [|apply MStop]. eapply r_move; [|apply (MRun (bal [leaf]) eq_refl)]. apply r_start.
  - split; [|discriminate]. cbn. intros t' S. inversion S; subst.
    match goal with E : ?a ++ ?x :: ?b = _ |- _ => destruct a as [|? [|? ?]]; cbn in E; try discriminate; injection E as -> ? end.
    match goal with H : step (Leaf _ _) _ |- _ => inversion H end.
Qed.

(** Stop returns before the tree has ended: the loop only took its message *)
Example C153_stop_returns_early : exists s, reachable (bal [leaf]) s /\ user s = UDone /\ ~ ended (root s).
Proof.
  exists (mkSt (Bal (Some 0) (Stopping 0) [Leaf (Some 0) LRun]) UDone). split; [|split; [reflexivity|cbn; intros [E _]; discriminate]].
  eapply r_move; [|apply (MTake (Bal (Some 0) Waiting [Leaf (Some 0) LRun])); reflexivity]. eapply r_move; [|apply MStep, (SUp (Some 0) [Leaf (Some 0) LRun])].
  eapply r_move; [|apply MStep, (SStart (Some 0) [] leaf [] eq_refl)]. eapply r_move; [|apply MStop]. eapply r_move; [|apply (MRun (bal [leaf]) eq_refl)]. apply r_start.
Qed.
(** a balancer is added to a balancer that runs, and started *)
Example C153_added : exists s, reachable (bal []) s /\ user s = URan /\ root s = Bal (Some 0) Waiting [Bal (Some 0) Waiting [Leaf (Some 0) LRun]].
Proof.
  exists (mkSt (Bal (Some 0) Waiting [Bal (Some 0) Waiting [Leaf (Some 0) LRun]]) URan). split; [|split; reflexivity].
  eapply r_move; [|apply MStep, (SIn (Some 0) Waiting [] (Bal (Some 0) (Starting 1) [Leaf (Some 0) LRun]) _ []), (SUp (Some 0) [Leaf (Some 0) LRun])].
  eapply r_move; [|apply MStep, (SIn (Some 0) Waiting [] (Bal (Some 0) (Starting 0) [leaf]) _ []), (SStart (Some 0) [] leaf [] eq_refl)].
  apply (r_add _ (mkSt (Bal (Some 0) Waiting []) URan) (bal [leaf])); [|cbn; auto|apply (ARun (bal [leaf]) 0 [])].
  eapply r_move; [|apply MStep, (SUp (Some 0) [])]. eapply r_move; [|apply (MRun (bal []) eq_refl)]. apply r_start.
Qed.

Print Assumptions C153_sound_on_one_channel.
Print Assumptions C153_run_starts_all.
Print Assumptions C153_stop_ends_all.
Print Assumptions C153_comes_to_rest.
