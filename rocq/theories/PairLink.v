(** The client's machine driven by a peer that answers each frame at most once: which request gets which answer. *)
From Coq Require Import ZArith List Bool Arith Lia Permutation.
Import ListNotations.
From Verif Require Import HolderModel HolderSpec HolderProofs HolderPolite HolderProps.
Open Scope Z_scope.

(** an answer: the number of the frame it answers, and what it says *)
Definition ans := (nat * Z * list Z)%type.
Definition nums (l : list ans) : list nat := map (fun a => fst (fst a)) l.
(** the answer [a] was given to the frame that carried the request [r] *)
Definition good (h : list obs) (l : list ans) (r : rid) (code : Z) (body : list Z) : Prop :=
  exists k id, nth_error (wires h) k = Some (id, r) /\ In (k, code, body) l.
Record K (c : conn) (h : list obs) (l : list ans) : Prop := {
  k_pol : polite h;
  k_lt : forall k, In k (nums l) -> (k < length (wires h))%nat;
  k_un : forall k, (k < length (wires h))%nat -> (~ In k (nums l) <-> In (Z.of_nat k) (map w_nth (unanswered h)));
  k_read : forall r code body, reader c = Some (Some r, code, body) -> (exists o, In (r, o) (dones h)) \/ good h l r code body;
  k_done : forall r code body, In (r, Answer code body) (dones h) -> good h l r code body }.
Lemma K_init : K c_init [] [].
Proof. constructor; try easy; try (intros; cbn in *; lia). intros p i code body q E. now destruct p. Qed.
Lemma good_app h l r code body h' l' : good h l r code body -> good (h ++ h') (l ++ l') r code body.
Proof. intros (k & id & H & I). exists k, id. split; [|apply in_or_app; now left]. rewrite wires_app, nth_error_app1; [exact H|]. apply nth_error_Some. congruence. Qed.
Lemma polite_snoc t o : polite t -> (forall i c b, o = OGot i c b -> In i (map w_id (unanswered t))) -> polite (t ++ [o]).
Proof.
  intros P H p i code body q E. destruct q as [|x q] using rev_ind.
  - apply app_inj_tail in E. destruct E as [-> ->]. now apply (H i code body).
  - clear IHq. rewrite app_comm_cons, app_assoc in E. apply app_inj_tail in E. destruct E as [-> _]. now apply (P p i code body q).
Qed.
Definition is_resp (e : ev) : bool := match e with Resp _ _ _ => true | _ => false end.
Lemma step_reader_same c e o c' : is_resp e = false -> step c e = (o, Some c') -> (reader c' = reader c \/ reader c' = None) /\ (forall i b d, ~ In (OGot i b d) o).
Proof.
  intros R E. destruct e as [|r|id code body| |r code| | |]; try discriminate; cbn [step] in E;
    repeat match type of E with
    | ((match ?x with _ => _ end) = _) => let Q := fresh "Q" in destruct x eqn:Q
    | (let _ := _ in _) = _ => cbv zeta in E
    end; try discriminate; injection E as <- <-; (split; [cbn; auto|]); intros; intro H; try (now destruct H); destruct H as [H|[]]; discriminate.
Qed.
Lemma step_one c e o oc : step c e = (o, oc) -> o = [] \/ exists x, o = [x].
Proof. intro E. exact (proj1 (step_obs _ _ _ _ E)). Qed.
Lemma in_dones o r x : In (r, x) (dones o) -> In (ODone r x) o.
Proof. induction o as [|y o IH]; [easy|]. destruct y; cbn; intro H; try (right; now apply IH). destruct H as [H|H]; [injection H as <- <-; now left|right; now apply IH]. Qed.

(** every event but a response keeps it, and none of them crashes the client *)
Lemma K_quiet c h l e o oc : reach c h -> K c h l -> is_resp e = false -> step c e = (o, oc) -> timely (h ++ o) ->
  exists c', oc = Some c' /\ K c' (h ++ o) l.
Proof.
  intros R HK NR E T. pose proof (timely_pre _ _ T) as T0. destruct (reach_polite _ _ R (k_pol _ _ _ HK) T0) as (N & I & P).
  destruct (step_one _ _ _ _ E) as [->|[x ->]].
  - rewrite app_nil_r in *. destruct (polite_step c h e [] oc I P N E) as (c' & -> & N' & P'); rewrite ?app_nil_r; [apply HK|exact T|]. exists c'. split; [reflexivity|].
    constructor; try apply HK. intros r code body Q. destruct (step_reader_same _ _ _ _ NR E) as [[RR|RR] _]; [|congruence]. apply (k_read _ _ _ HK). now rewrite <- RR.
  - assert (NG : forall i b d, x <> OGot i b d).
    { intros i b d ->. destruct oc as [c'|]; [destruct (step_reader_same _ _ _ _ NR E) as [_ G]; apply (G i b d); now left|].
      destruct e as [|r|id code body| |r code| | |]; try discriminate; cbn [step] in E;
      repeat match type of E with
      | ((match ?x with _ => _ end) = _) => let Q := fresh "Q" in destruct x eqn:Q
      | (let _ := _ in _) = _ => cbv zeta in E
      end; discriminate. }
    assert (PO : polite (h ++ [x])) by (apply polite_snoc; [apply HK|intros i c0 b0 ->; now elim (NG i c0 b0)]).
    destruct (polite_step c h e [x] oc I P N E PO T) as (c' & -> & N' & P'). exists c'. split; [reflexivity|]. pose proof (CI_step c h e [x] c' I E N') as I'.
    destruct (step_reader_same _ _ _ _ NR E) as [RR _]. constructor.
    + exact PO.
    + intros k Q. rewrite wires_app, app_length. apply (k_lt _ _ _ HK) in Q. lia.
    + intros k L. rewrite unanswered_snoc. destruct x as [i r|i c0 b0|r oo|].
      * (* a frame is sent *) rewrite wires_app, app_length in L. cbn in L. rewrite map_app, in_app_iff. cbn [map In w_nth].
        destruct (Nat.eq_dec k (length (wires h))) as [->|D].
        -- split; [intros _; right; left; now rewrite nsent_wires|]. intros _ Q. apply (k_lt _ _ _ HK) in Q. lia.
        -- assert (L2 : (k < length (wires h))%nat) by lia. rewrite (k_un _ _ _ HK k L2). split; [now left|]. intros [Q|[Q|[]]]; [exact Q|]. rewrite nsent_wires in Q. lia.
      * now elim (NG i c0 b0).
      * apply (k_un _ _ _ HK). rewrite wires_app, app_length in L. cbn in L. lia.
      * apply (k_un _ _ _ HK). rewrite wires_app, app_length in L. cbn in L. lia.
    + intros r code body Q. destruct RR as [RR|RR]; [|congruence]. rewrite RR in Q. destruct (k_read _ _ _ HK r code body Q) as [[o D]|G]; [left; exists o; rewrite dones_app; apply in_or_app; now left|].
      right. rewrite <- (app_nil_r l). now apply good_app.
    + intros r code body Q. rewrite dones_app in Q. apply in_app_or in Q. rewrite <- (app_nil_r l). destruct Q as [Q|Q]; [apply good_app; now apply HK|]. apply in_dones in Q.
      destruct (step_obs _ _ _ _ E) as (_ & H & _). specialize (H r code body Q). destruct (k_read _ _ _ HK r code body H) as [[oo D]|G]; [|now apply good_app].
      exfalso. destruct Q as [->|[]]. pose proof (ci_dones _ _ I') as ND. rewrite dones_app, map_app in ND. cbn in ND. apply NoDup_remove_2 in ND. rewrite app_nil_r in ND. apply ND. apply in_map_iff. now exists (r, oo).
Qed.

Lemma nth_id_eq k k' : nth_id (Z.of_nat k) = nth_id (Z.of_nat k') -> k = k' \/ Z.of_nat k + (2 ^ 32 - 2) <= Z.of_nat k' \/ Z.of_nat k' + (2 ^ 32 - 2) <= Z.of_nat k.
Proof.
  intro E. destruct (Z_lt_le_dec (Z.of_nat k) (Z.of_nat k')) as [L|L].
  - right. left. destruct (Z_lt_le_dec (Z.of_nat k' - Z.of_nat k) (2 ^ 32 - 2)) as [D|D]; [|lia]. elim (nth_id_far (Z.of_nat k) (Z.of_nat k')); [lia|lia|exact E].
  - destruct (Z.eq_dec (Z.of_nat k) (Z.of_nat k')) as [Q|Q]; [left; lia|]. right. right. destruct (Z_lt_le_dec (Z.of_nat k - Z.of_nat k') (2 ^ 32 - 2)) as [D|D]; [|lia]. elim (nth_id_far (Z.of_nat k') (Z.of_nat k)); [lia|lia|now symmetry].
Qed.
Lemma answer_nth l i w : NoDup (map w_id l) -> In w l -> w_id w = i -> NoDup (map w_nth l) -> forall n, In n (map w_nth (answer l i)) <-> In n (map w_nth l) /\ n <> w_nth w.
Proof.
  induction l as [|y l IH]; intros N H E N2 n; [easy|]. cbn [map] in *. inversion_clear N as [|? ? A B]. inversion_clear N2 as [|? ? C D]. cbn [answer]. destruct (Z.eqb_spec (w_id y) i) as [Q|Q].
  - assert (y = w) as ->. { destruct H as [H|H]; [exact H|]. elim A. apply in_map_iff. exists w. split; [congruence|exact H]. }
    cbn [In]. split; [intro X; split; [now right|intros ->; now elim C]|]. intros [[X|X] Y]; [now elim Y|exact X].
  - destruct H as [->|H]; [congruence|]. cbn [map In]. rewrite (IH B H E D n). split; [intros [<-|[X Y]]; [split; [now left|]|split; [now right|exact Y]]|].
    + intro X. apply C. rewrite X. now apply in_map.
    + intros [[X|X] Y]; [now left|right; now split].
Qed.

(** the answer to a frame that was not answered before *)
Lemma K_got c h l k id r0 code body o oc : reach c h -> K c h l -> timely h -> reader c = None -> open c = true ->
  nth_error (wires h) k = Some (id, r0) -> ~ In k (nums l) -> step c (Resp id code body) = (o, oc) ->
  o = [OGot id code body] /\ exists c', oc = Some c' /\ K c' (h ++ o) (l ++ [(k, code, body)]).
Proof.
  intros R HK T RD OP WK NK E. destruct (reach_polite _ _ R (k_pol _ _ _ HK) T) as (N & I & P).
  pose proof (ci_ids _ _ I _ _ WK) as ID. cbn [fst] in ID.
  assert (LK : (k < length (wires h))%nat) by (apply nth_error_Some; congruence).
  assert (O : o = [OGot id code body]).
  { cbn [step] in E. rewrite RD, OP in E. assert (B : 0 <= id < 2 ^ 32) by (rewrite ID; unfold nth_id; pose proof (Z.mod_pos_bound (Z.of_nat k) (2 ^ 32 - 2)); lia).
    destruct (Z.leb_spec 0 id); [|lia]. destruct (Z.ltb_spec id (2 ^ 32)); [|lia]. cbn [andb] in E. now injection E as <- _. }
  split; [exact O|]. subst o. pose proof (proj1 (k_un _ _ _ HK k LK) NK) as UK. apply in_map_iff in UK. destruct UK as (w & WN & WU).
  destruct (un_wires h w WU) as [WB WX]. rewrite WN, Nat2Z.id, WK in WX. injection WX as WI WR.
  assert (PO : polite (h ++ [OGot id code body])). { apply polite_snoc; [apply HK|]. intros i c0 b0 Q. injection Q as <- <- <-. rewrite WI. now apply in_map. }
  assert (TI : timely (h ++ [OGot id code body])).
  { intros p i r q Q. destruct q as [|y q] using rev_ind; [apply app_inj_tail in Q; destruct Q as [_ Q]; discriminate|]. clear IHq. rewrite app_comm_cons, app_assoc in Q. apply app_inj_tail in Q. destruct Q as [-> _]. now apply (T p i r q). }
  destruct (polite_step c h _ _ oc I P N E PO TI) as (c' & -> & N' & P'). exists c'. split; [reflexivity|]. pose proof (CI_step _ _ _ _ _ I E N') as I'.
  assert (NDI : NoDup (map w_id (unanswered h))).
  { pose proof (un_nd h) as ND. assert (IDS : forall w, In w (unanswered h) -> w_id w = nth_id (w_nth w) /\ 0 <= w_nth w < nsent h /\ nsent h - w_nth w <= X).
    { intros w' Q. split; [now apply (un_id c h)|]. split; [apply (un_wires h w' Q)|now apply un_timely]. }
    clear - ND IDS. induction (unanswered h) as [|w l IH]; [constructor|]. cbn [map] in *. inversion_clear ND as [|? ? N1 N2]. constructor; [|apply IH; [exact N2|intros; apply IDS; now right]].
    intro Q. apply in_map_iff in Q. destruct Q as (w' & Q & H). destruct (IDS w (or_introl eq_refl)) as (A & B & C). destruct (IDS w' (or_intror H)) as (A' & B' & C'). unfold X in *.
    apply N1. apply in_map_iff. exists w'. split; [|exact H]. destruct (Z.lt_trichotomy (w_nth w) (w_nth w')) as [L|[L|L]]; [|now symmetry|].
    - elim (nth_id_far (w_nth w) (w_nth w')); [lia|lia|congruence].
    - elim (nth_id_far (w_nth w') (w_nth w)); [lia|lia|congruence]. }
  assert (NM : nums (l ++ [(k, code, body)]) = nums l ++ [k]) by (unfold nums; now rewrite map_app).
  constructor.
  - exact PO.
  - intros k' Q. rewrite wires_app. cbn. rewrite app_nil_r. rewrite NM in Q. apply in_app_or in Q. destruct Q as [Q|[<-|[]]]; [now apply HK|exact LK].
  - intros k' L'. rewrite wires_app in L'. cbn in L'. rewrite app_nil_r in L'. rewrite unanswered_snoc, NM, in_app_iff. rewrite (answer_nth _ id w NDI WU (eq_sym WI) (un_nd h)). rewrite <- (k_un _ _ _ HK k' L'), WN. cbn [In].
    split; [intro Q; split; [tauto|]; intro D; apply Q; right; left; lia|]. intros [Q D] [Q'|[Q'|[]]]; [contradiction|]. now subst.
  - intros r code' body' Q. destruct (ci_read _ _ I' r code' body' Q) as (id' & p & q & J1 & J2 & J3).
    assert (q = [] /\ p = h /\ id' = id /\ code' = code /\ body' = body) as (-> & -> & -> & -> & ->).
    { destruct q as [|y q _] using rev_ind; [apply app_inj_tail in J2; destruct J2 as [-> J2]; injection J2 as <- <- <-; now repeat split|].
      rewrite app_comm_cons, app_assoc in J2. apply app_inj_tail in J2. destruct J2 as [_ <-]. elim (J3 id code body). apply in_or_app. right. now left. }
    apply In_nth_error in J1. destruct J1 as [k0 K0]. pose proof (ci_ids _ _ I _ _ K0) as ID0. cbn [fst] in ID0.
    assert (L0 : (k0 < length (wires h))%nat) by (apply nth_error_Some; congruence).
    destruct (nth_id_eq k0 k (eq_trans (eq_sym ID0) ID)) as [->|[FAR|FAR]].
    + right. exists k, id. split; [|apply in_or_app; right; now left]. rewrite wires_app. cbn. now rewrite app_nil_r.
    + left. assert (D : (exists o, In (r, o) (dones h)) \/ exists w i, rs c r = RFly w i) by (apply (sent_state c h r I); apply in_map_iff; exists (id, r); split; [reflexivity|now apply nth_error_In in K0]).
      destruct D as [[oo D]|(a & b & F)]; [exists oo; rewrite dones_app; apply in_or_app; now left|]. exfalso.
      destruct (pi_fly _ _ P _ _ _ F) as [(x & X1 & X2)|(a' & b' & X1)]; [|congruence]. destruct (un_wires h x X1) as [XB XX]. rewrite X2 in XX.
      pose proof (nth_wires_fly h _ _ _ _ _ (ci_once _ _ I) K0 XX) as EQ. pose proof (un_timely h T x X1) as TX. unfold X in TX. rewrite nsent_wires in TX. lia.
    + exfalso. pose proof (un_timely h T w WU) as TX. unfold X in TX. rewrite nsent_wires, WN in TX. lia.
  - intros r code' body' Q. rewrite dones_app in Q. cbn in Q. rewrite app_nil_r in Q. apply good_app. now apply HK.
Qed.
