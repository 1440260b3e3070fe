(** How a step on a connection's table changes the states of the requests, whatever the peer does. *)
From Coq Require Import ZArith List Bool Arith Lia.
Import ListNotations.
From Verif Require Import HolderModel HolderSpec HolderProofs.
Open Scope Z_scope.

(** a request with a slot has been taken by this connection *)
Definition OWN (c : conn) : Prop := forall w i r, own (slots (rows (hold c) w) i) = Some r -> rs c r <> RNew.
Definition hown (h : holder) (P : rid -> Prop) : Prop := forall w i r, own (slots (rows h w) i) = Some r -> P r.
Lemma hown_set h w i s P : hown h P -> (forall r, own s = Some r -> P r) -> hown (set_slot h w i s) P.
Proof.
  intros O S w' i' r. cbn [set_slot rows]. unfold upd. destruct (w' =? w); cbn [slots]; [|apply O]. unfold upd. destruct (i' =? i); [apply S|apply O].
Qed.
Lemma hown_next P fuel : forall h h' s, hown h P -> next_loop fuel h = Some (h', s) -> hown h' P.
Proof.
  induction fuel as [|fuel IH]; intros h h' s O E; cbn [next_loop] in E; [discriminate|].
  match type of E with context [fake (slots (rows ?x _) _)] => set (h1 := x) in E end.
  assert (O1 : hown h1 P).
  { unfold h1. destruct (negb _); [|exact O]. intros w i r. cbn [rows]. unfold upd. destruct (w =? nrow h); [discriminate|apply O]. }
  clearbody h1. destruct (_ && _); [|eapply IH; eauto].
  match type of E with (if ?b then _ else _) = _ => destruct b end; [eapply IH; eauto|]. injection E as <- <-. apply hown_set; [exact O1|]. cbn [own]. intros r. apply O1.
Qed.
Lemma hown_getNext P h h' s : hown h P -> getNext h = Some (h', s) -> hown h' P.
Proof. unfold getNext. generalize 600%nat. intros f O E. eapply hown_next; [|exact E]. exact O. Qed.
Lemma hown_remove P h id h' ir : hown h P -> remove h id = Some (h', ir) -> hown h' P /\ (forall r, ir = Some r -> P r).
Proof.
  intros O E. unfold remove in E. destruct (if negb _ then _ else _) as [l|]; [|discriminate]. injection E as <- <-. split; [|apply O].
  intros w i r. cbn [rows]. unfold upd. destruct (w =? l); cbn [slots]; [|apply O]. destruct (i =? _); cbn [own]; apply O.
Qed.
Lemma OWN_complete c r o : OWN c -> OWN (complete c r o).
Proof.
  intro O. unfold OWN, complete. cbn [hold rs]. intros w i q H. unfold updr. destruct (Nat.eqb_spec q r) as [->|]; [discriminate|].
  assert (K : hown (hold c) (fun q => rs c q <> RNew)) by exact O.
  destruct (rs c r); [exact (O _ _ _ H)| |exact (O _ _ _ H)].
  refine (hown_set _ _ _ _ _ K _ _ _ _ H). discriminate.
Qed.
(** what a step does to the requests: nothing, or one is taken, or one in flight ends *)
Inductive rchange (c : conn) (e : ev) (o : list obs) (c' : conn) : Prop :=
| rc_none : rs c' = rs c -> dones o = [] -> wires o = [] -> rchange c e o c'
| rc_take r w j id : e = Send r -> rs c r = RNew -> rs c' = updr (rs c) r (RFly w j) -> o = [OWire id r] -> rchange c e o c'
| rc_end r w j x : e = Deliver \/ e = Flush -> rs c r = RFly w j -> rs c' = updr (rs c) r (RDone x) -> o = [ODone r x] -> rchange c e o c'.
Lemma tab_step c e o c' : OWN c -> (forall r code, e <> Local r code) -> step c e = (o, Some c') -> OWN c' /\ rchange c e o c'.
Proof.
  intros O NL E. destruct e as [|r|id code body| |r code| | |]; cbn [step] in E.
  - destruct (pre c); [injection E as <- <-; split; [exact O|now apply rc_none]|]. destruct (open c); [|injection E as <- <-; split; [exact O|now apply rc_none]].
    destruct (getNext (hold c)) as [[h s]|] eqn:G; [|discriminate]. injection E as <- <-. split; [|now apply rc_none]. exact (hown_getNext (fun q => rs c q <> RNew) _ _ _ O G).
  - destruct (pre c) as [[w i]|]; [|injection E as <- <-; split; [exact O|now apply rc_none]]. destruct (rs c r) eqn:R; try (injection E as <- <-; split; [exact O|now apply rc_none]).
    destruct (open c); [|injection E as <- <-; split; [exact O|now apply rc_none]]. injection E as <- <-. split.
    + unfold OWN. cbn [hold rs]. intros w' i' q. refine (hown_set (hold c) w i _ (fun q => updr (rs c) r (RFly w i) q <> RNew) _ _ w' i' q).
      * intros a b p H. apply O in H. unfold updr. destruct (Nat.eqb p r); [discriminate|exact H].
      * cbn [own]. intros p X. injection X as <-. unfold updr. rewrite Nat.eqb_refl. discriminate.
    + eapply (rc_take _ _ _ _ r w i); [reflexivity|exact R|reflexivity|reflexivity].
  - destruct (reader c); [injection E as <- <-; split; [exact O|now apply rc_none]|]. destruct (_ && _); [|injection E as <- <-; split; [exact O|now apply rc_none]].
    destruct (remove (hold c) id) as [[h ir]|] eqn:G; [|discriminate]. injection E as <- <-. split; [|now apply rc_none]. exact (proj1 (hown_remove (fun q => rs c q <> RNew) _ _ _ _ O G)).
  - destruct (reader c) as [[[ir code] body]|]; [|injection E as <- <-; split; [exact O|now apply rc_none]]. cbn [rs] in E. destruct ir as [r|]; [|injection E as <- <-; split; [exact O|now apply rc_none]].
    destruct (rs c r) as [|w j|] eqn:R; try (injection E as <- <-; split; [exact O|now apply rc_none]). injection E as <- <-. split; [now apply OWN_complete|].
    eapply (rc_end _ _ _ _ r w j); [now left|exact R|reflexivity|reflexivity].
  - elim (NL r code eq_refl).
  - injection E as <- <-. split; [exact O|now apply rc_none].
  - destruct (reader c); [injection E as <- <-; split; [exact O|now apply rc_none]|]. destruct (open c); [|injection E as <- <-; split; [exact O|now apply rc_none]].
    destruct (getAll _); [|discriminate]. injection E as <- <-. split; [exact O|now apply rc_none].
  - destruct (flush c) as [|[w i] l]; [injection E as <- <-; split; [exact O|now apply rc_none]|]. cbn [with_flush hold rs shut] in E.
    destruct (own _) as [r|] eqn:W; [|injection E as <- <-; split; [exact O|now apply rc_none]].
    destruct (rs c r) as [|w' j|] eqn:R; [elim (O _ _ _ W R)| |injection E as <- <-; split; [exact O|now apply rc_none]].
    injection E as <- <-. split; [now apply OWN_complete|]. eapply (rc_end _ _ _ _ r w' j); [now right|exact R|reflexivity|reflexivity].
Qed.
Lemma tab_crash c e o : step c e = (o, None) -> dones o = [] /\ wires o = [] /\ (forall r code, e <> Local r code).
Proof.
  destruct e as [|r|id code body| |r code| | |]; cbn [step]; intro E;
  repeat match type of E with
  | ((match ?x with _ => _ end) = _) => destruct x
  | ((_, match ?x with _ => _ end) = _) => destruct x
  | (let _ := _ in _) = _ => cbv zeta in E
  end; try discriminate; injection E as <-; repeat split; discriminate.
Qed.
(** a request ended from elsewhere *)
Lemma local_step c r code : OWN c -> (forall x, rs c r <> RDone x) -> exists c', step c (Local r code) = ([ODone r (Elsewhere code)], Some c') /\ OWN c' /\
  rs c' = updr (rs c) r (RDone (Elsewhere code)) /\ open c' = open c /\ reader c' = reader c /\ pre c' = pre c /\ flush c' = flush c.
Proof.
  intros O N. cbn [step]. exists (complete c r (Elsewhere code)). destruct (rs c r) eqn:R; [| |elim (N _ eq_refl)]; (split; [reflexivity|]); (split; [now apply OWN_complete|]); now repeat split.
Qed.
Lemma OWN_init : OWN c_init. Proof. intros w i r. discriminate. Qed.
(** what a step does to the loops' side *)
Lemma tab_loops c e o c' : step c e = (o, Some c') ->
  (open c' = true -> open c = true) /\ (open c' = false -> open c = false \/ e = Close) /\
  (e = Close -> reader c = None -> open c' = false) /\
  (reader c' <> None -> reader c <> None \/ exists id code body, e = Resp id code body).
Proof.
  destruct e as [|r|id code body| |r code| | |]; cbn [step]; intro E;
  repeat match type of E with
  | ((match ?x with _ => _ end) = _) => let Q := fresh "Q" in destruct x eqn:Q
  | ((_, match ?x with _ => _ end) = _) => let Q := fresh "Q" in destruct x eqn:Q
  | (let _ := _ in _) = _ => cbv zeta in E
  end; try discriminate; injection E as <- <-;
  (split; [|split; [|split]]); cbn [open reader complete with_flush]; try congruence; try tauto; try (right; eauto; fail); eauto; try (intros; left; congruence).
Qed.
