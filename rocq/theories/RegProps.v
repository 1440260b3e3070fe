(** C109-C110: the registries of codecs. *)
From Coq Require Import List Bool Arith Lia Relations.
Import ListNotations.
From Verif Require Import RegModel RegSpec RegProofs.

Lemma links_map m p l : Forall2 (link m) p l -> map Some l = map (fun i => match i with Need u => m u | Fail => None end) p.
Proof. induction 1 as [|i o p l H F IH]; [reflexivity|]. cbn [map]. rewrite IH. destruct i as [u|]; [cbn in H; now rewrite H|destruct H]. Qed.
Lemma links_in m p l u : Forall2 (link m) p l -> In (Need u) p -> exists o, m u = Some o.
Proof. induction 1 as [|i o p l H F IH]; intros []; [subst i; now exists o|now apply IH]. Qed.
Lemma links_fail m p l : Forall2 (link m) p l -> ~ In Fail p.
Proof. induction 1 as [|i o p l H F IH]; intros []; [now subst i|now apply IH]. Qed.
Lemma whole_parts prog s : (forall u v, ws s u = Some v -> whole prog s (ws s) u v) -> forall u w, parts prog u w -> forall o, ws s u = Some o -> exists o', ws s w = Some o'.
Proof.
  intros H u w P. induction P as [u w P|u|u w x P1 IH1 P2 IH2]; intros o E.
  - destruct (H _ _ E) as [_ F]. now apply (links_in _ _ _ _ F).
  - now exists o.
  - destruct (IH1 o E) as [o' E']. now apply (IH2 o').
Qed.

(** ** C109 *)
(** Whatever goroutines ask for whatever types, there is one table of codecs such that every call that returned gave the codec
    of this table; the codec of the table for a type is filled, and points, for each element or field of the type in turn, to
    the codec of the table for its type; so do all the codecs that can be reached from it; and no codec is that of two types. *)
Theorem C109_complete_and_unique : forall prog es t s, start prog es = (t, s) ->
  exists table : nat -> option nat,
    (forall k u o, In (ORet k u o) t -> table u = Some o) /\
    (forall u o, table u = Some o -> ready prog table s u o) /\
    (forall u o w, table u = Some o -> parts prog u w -> exists o', table w = Some o' /\ ready prog table s w o') /\
    (forall u w o, table u = Some o -> table w = Some o -> u = w).
Proof.
  intros prog es t s E. apply start_inv in E. exists (ws s).
  assert (R : forall u o, ws s u = Some o -> ready prog (ws s) s u o).
  { intros u o H. destruct (iWs _ _ _ E u o H) as [F L]. split; [exact F|]. now apply links_map. }
  split; [exact (iRet _ _ _ E)|]. split; [exact R|]. split; [|exact (iInj _ _ _ E)].
  intros u o w H P. destruct (whole_parts prog s (iWs _ _ _ E) u w P o H) as [o' H']. exists o'. split; [exact H'|]. now apply R.
Qed.
Lemma step_ext prog t s e : Inv prog t s -> ext (ws s) (ws (snd (step prog s e))).
Proof.
  intro I. destruct e as [k u|k]; cbn [step].
  - destruct (pcs s k); exact (fun _ _ H => H).
  - destruct (pcs s k) as [|u|u|u|u|u v|u|u v| |] eqn:E; try exact (fun _ _ H => H).
    + destruct (ws s u); exact (fun _ _ H => H).
    + destruct (lock s); exact (fun _ _ H => H).
    + destruct (ws s u); exact (fun _ _ H => H).
    + unfold step_build. destruct (stk s) as [|[[t1 o1] [|[t2|] p]] rest]; try exact (fun _ _ H => H); [exact (bExt _ _ _ _ (iBld _ _ _ I k u v E))|]. destruct (wss s t2); exact (fun _ _ H => H).
Qed.
Lemma run_ext prog es : forall t s, Inv prog t s -> ext (ws s) (ws (snd (run prog s es))).
Proof.
  induction es as [|e es IH]; intros t s I; cbn [run]; [exact (fun _ _ H => H)|].
  pose proof (step_ext prog t s e I) as X. pose proof (step_inv prog t s e I) as J. destruct (step prog s e) as [o s1]. specialize (IH _ _ J). cbn [fst snd] in *. destruct (run prog s1 es) as [o' s2]. intros u v H. now apply IH, X.
Qed.
Lemma run_app prog es : forall s es', run prog s (es ++ es') = (fst (run prog s es) ++ fst (run prog (snd (run prog s es)) es'), snd (run prog (snd (run prog s es)) es')).
Proof.
  induction es as [|e es IH]; intros s es'; cbn [run app fst snd]; [now rewrite <- surjective_pairing|].
  destruct (step prog s e) as [o s1]. rewrite IH. destruct (run prog s1 es) as [o2 s2]. cbn [fst snd]. now rewrite app_assoc.
Qed.
(** A codec that was handed out, and any codec it is made of, is not changed by whatever happens later. *)
Theorem C109_frozen : forall prog es es' t s t' s' k u o w o',
  start prog es = (t, s) -> start prog (es ++ es') = (t', s') -> In (ORet k u o) t -> parts prog u w -> (exists k', In (ORet k' w o') t') ->
  full s o' = true /\ full s' o' = true /\ refs s' o' = refs s o'.
Proof.
  intros prog es es' t s t' s' k u o w o' E E' R P [k' R']. unfold start in E'. rewrite run_app in E'. unfold start in E. rewrite E in E'. cbn [fst snd] in E'. injection E' as T S.
  assert (I : Inv prog t s) by now apply (start_inv prog es). assert (I' : Inv prog t' s').
  { apply (start_inv prog (es ++ es')). unfold start. rewrite run_app, E. cbn [fst snd]. now rewrite T, S. }
  destruct (whole_parts prog s (iWs _ _ _ I) u w P o (iRet _ _ _ I _ _ _ R)) as [v V].
  pose proof (run_ext prog es' t s I) as X. rewrite S in X.
  assert (o' = v) as -> by (pose proof (X _ _ V) as Y; rewrite (iRet _ _ _ I' _ _ _ R') in Y; congruence).
  destruct (iWs _ _ _ I w v V) as [F1 L1]. destruct (iWs _ _ _ I' w v (X _ _ V)) as [F2 L2]. repeat split; trivial.
  apply (links_ext _ _ _ _ X) in L1. apply links_map in L1, L2. rewrite <- L1 in L2. clear - L2.
  revert L2. generalize (refs s v) (refs s' v). intro l. induction l as [|x l IH]; intros [|y m] H; try discriminate; [reflexivity|]. cbn in H. injection H as -> H. f_equal. now apply IH.
Qed.

(** ** C110 *)
(** A call returns only if everything the type is made of is supported, and panics only if something is not. *)
Theorem C110_fails_iff_unsupported : forall prog es t s, start prog es = (t, s) ->
  (forall k u o, In (ORet k u o) t -> supported prog u) /\ (forall k u, In (OPanic k u) t -> ~ supported prog u).
Proof.
  intros prog es t s E. apply start_inv in E. split; [|exact (iPan _ _ _ E)].
  intros k u o R w P. apply (iRet _ _ _ E) in R. destruct (whole_parts prog s (iWs _ _ _ E) u w P o R) as [v V]. destruct (iWs _ _ _ E w v V) as [_ L]. now apply links_fail in L.
Qed.
(** No call waits for ever: when no goroutine can go on, each call has returned or panicked, as its type tells. *)
Theorem C110_every_call_ends : forall prog es t s, start prog es = (t, s) -> quiet prog s ->
  forall k u, In (OCall k u) t -> (supported prog u -> exists o, In (ORet k u o) t) /\ (~ supported prog u -> In (OPanic k u) t) /\ ((exists o, In (ORet k u o) t) \/ In (OPanic k u) t).
Proof.
  intros prog es t s E Q k u C. destruct (C110_fails_iff_unsupported prog es t s E) as [H1 H2]. apply start_inv in E. pose proof (quiet_ends prog t s E Q k) as N.
  assert (D : (exists o, In (ORet k u o) t) \/ In (OPanic k u) t).
  { destruct (iCall _ _ _ E k u C) as [X|X]; [|exact X]. now destruct (pcs s k). }
  split; [|split; [|exact D]].
  - intro S. destruct D as [D|D]; [exact D|]. now apply H2 in D.
  - intro S. destruct D as [[o D]|D]; [|exact D]. now apply H1 in D.
Qed.
(** ... and the goroutines get there: from any state reached, only so many steps of the calls under way are possible, if the
    types that were asked for are made of finitely many types *)
Theorem C110_bounded : forall prog es t s U, start prog es = (t, s) ->
  (forall k u, In (Call k u) es -> In u U) -> (forall u w, In u U -> part prog u w -> In w U) ->
  exists N, forall more, productive prog s more -> length more <= N.
Proof.
  intros prog es t s U E C CL. assert (G : exists B, below B s /\ uses prog U s).
  { apply (run_below prog U CL es s_init t s 0); trivial; [now intros k _|]. split; cbn; [trivial|intros ? ? ? []]. }
  destruct G as (B & G1 & G2). exists (rank prog U B s). intros more P. now apply (productive_bound prog U CL B more t s (start_inv prog es t s E)).
Qed.

(** Examples. Type 0 is a list node: a number (1) and a pointer (2) to a node; type 3 is a struct of a node and a channel (4). *)
Definition ex_prog (t : nat) : list instr := match t with 0 => [Need 1; Need 2] | 2 => [Need 0] | 3 => [Need 0; Need 4] | 4 => [Fail] | _ => [] end.
Definition gos (k n : nat) : list ev := repeat (Go k) n.
(** goroutine 1 fails to build 3 when it already has half of it, while 2 and 3 wait for the lock with the node type *)
Definition ex_es : list ev := [Call 1 3; Call 2 0; Call 3 2; Call 4 0] ++ gos 1 5 ++ gos 2 1 ++ gos 3 1 ++ gos 1 40 ++ gos 2 2 ++ gos 3 5 ++ gos 2 40 ++ gos 4 1 ++ gos 3 5.
Example C109_ex : fst (start ex_prog ex_es) = [OCall 1 3; OCall 2 0; OCall 3 2; OCall 4 0; OPanic 1 3; ORet 2 0 5; ORet 4 0 5; ORet 3 2 7].
Proof. vm_compute. reflexivity. Qed.
Example C109_ex_refs : let s := snd (start ex_prog ex_es) in refs s 5 = [6; 7] /\ refs s 7 = [5] /\ full s 5 = true /\ full s 6 = true /\ full s 7 = true /\ full s 0 = false.
Proof. vm_compute. repeat split. Qed.
Example C110_ex_supported : supported ex_prog 0 /\ ~ supported ex_prog 3.
Proof.
  split.
  - assert (G : forall u w, parts ex_prog u w -> u <= 2 -> w <= 2).
    { intros u w P. induction P as [u w P| |]; auto. intro L. unfold part in P. destruct u as [|[|[|]]]; cbn in P; [..|lia].
      - destruct P as [P|[P|[]]]; injection P as <-; lia.
      - destruct P.
      - destruct P as [P|[]]; injection P as <-; lia. }
    intros u P. apply G in P; [|lia]. destruct u as [|[|[|]]]; cbn; [intros [|[|]]; now try discriminate|tauto|intros [|]; now try discriminate|lia].
  - intro S. apply (S 4); [|now left]. apply rt_step. right. now left.
Qed.
Example C110_ex_quiet : quiet ex_prog (snd (start ex_prog ex_es)).
Proof. intros [k u|k] E; [destruct E|]. do 5 (destruct k as [|k]; [vm_compute; reflexivity|]). vm_compute. reflexivity. Qed.

Print Assumptions C109_complete_and_unique.
Print Assumptions C109_frozen.
Print Assumptions C110_fails_iff_unsupported.
Print Assumptions C110_every_call_ends.
Print Assumptions C110_bounded.
