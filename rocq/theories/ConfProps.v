(** Properties C66, C87 and C88: configuration defaults, the use of configured timeouts, deadlines. *)
From Coq Require Import ZArith List Bool Lia.
Import ListNotations.
From Verif Require Import Base ConfModel.
Open Scope Z_scope.

(** ** C66 *)
(** The configuration [d] is [c] with only unset fields filled. A number of connections below one is unset. *)
Definition fills (c d : config) : Prop :=
  (c_network c <> [] -> c_network d = c_network c) /\ (c_name c <> [] -> c_name d = c_name c) /\
  (0 < c_conns c -> c_conns d = c_conns c) /\ (c_dial c <> 0 -> c_dial d = c_dial c) /\ (c_ping c <> 0 -> c_ping d = c_ping c) /\
  c_address d = c_address c /\ c_read d = c_read c /\ c_write d = c_write c /\ c_rct d = c_rct c /\ c_timeout d = c_timeout c.
(** The values the unset fields get. *)
Definition filled (c d : config) : Prop :=
  (c_network c = [] -> (In colon (c_address c) -> c_network d = s_tcp) /\ (~ In colon (c_address c) -> c_network d = s_unix)) /\
  (c_name c = [] -> c_name d = c_network d ++ [colon] ++ c_address c) /\
  (c_conns c <= 0 -> c_conns d = 1) /\ (c_dial c = 0 -> c_dial d = 5000000000) /\ (c_ping c = 0 -> c_ping d = 1000000000).

Lemma has_colon l : existsb (Z.eqb colon) l = true <-> In colon l.
Proof.
  rewrite existsb_exists. split.
  - intros (x & H & E). apply Z.eqb_eq in E. now subst.
  - intro H. exists colon. split; [exact H|apply Z.eqb_refl].
Qed.
Ltac cfg c := unfold SetDefaults; destruct c as [nw ad nm cn di rd wr pi rc tm]; cbn [c_network c_address c_name c_conns c_dial c_read c_write c_ping c_rct c_timeout].
Theorem C66_only_unset c d : SetDefaults c = Some d -> fills c d.
Proof.
  cfg c. destruct ad as [|a ad]; [discriminate|]. cbn [empty]. intro H. injection H as <-. unfold fills. cbn.
  split; [|split; [|split; [|split; [|split; [|repeat split]]]]].
  - destruct nw; [congruence|reflexivity].
  - destruct nm; [congruence|reflexivity].
  - intro. destruct (Z.leb_spec cn 0); [lia|reflexivity].
  - intro. destruct (Z.eqb_spec di 0); [lia|reflexivity].
  - intro. destruct (Z.eqb_spec pi 0); [lia|reflexivity].
Qed.
Theorem C66_values c d : SetDefaults c = Some d -> filled c d.
Proof.
  cfg c. destruct ad as [|a ad]; [discriminate|]. cbn [empty]. intro H. injection H as <-. unfold filled.
  cbn [c_network c_address c_name c_conns c_dial c_read c_write c_ping c_rct c_timeout].
  split; [|split; [|split; [|split]]].
  - intros ->. pose proof (has_colon (a :: ad)) as HC. cbn in HC |- *. destruct (_ || _) eqn:E; split; intro H; try reflexivity.
    + exfalso. now apply H, HC. + exfalso. apply HC in H. discriminate.
  - intros ->. reflexivity.
  - intro. destruct (Z.leb_spec cn 0); [reflexivity|lia].
  - intros ->. reflexivity.
  - intros ->. reflexivity.
Qed.
Lemma defaults_id d : c_address d <> [] -> c_network d <> [] -> c_name d <> [] -> 0 < c_conns d -> c_ping d <> 0 -> c_dial d <> 0 -> SetDefaults d = Some d.
Proof.
  cfg d. intros A N M K P D. destruct ad; [congruence|]. destruct nw; [congruence|]. destruct nm; [congruence|]. cbn [empty].
  destruct (Z.leb_spec cn 0); [lia|]. destruct (Z.eqb_spec pi 0); [lia|]. destruct (Z.eqb_spec di 0); [lia|]. reflexivity.
Qed.
Lemma address_set c d : SetDefaults c = Some d -> c_address c <> [].
Proof. cfg c. destruct ad; [discriminate|]. discriminate. Qed.
Theorem C66_idempotent c d : SetDefaults c = Some d -> SetDefaults d = Some d.
Proof.
  intro E. pose proof (address_set c d E) as A0. destruct (C66_only_unset c d E) as (N & M & K & D & P & A & _).
  destruct (C66_values c d E) as (N' & M' & K' & D' & P').
  assert (HN : c_network d <> []).
  { destruct (c_network c) as [|x l] eqn:Q; [|now rewrite N by discriminate]. destruct (N' eq_refl) as [X Y].
    destruct (in_dec Z.eq_dec colon (c_address c)) as [I|I]; [rewrite X by exact I|rewrite Y by exact I]; discriminate. }
  apply defaults_id; try assumption; try congruence.
  - destruct (c_name c) as [|x l] eqn:Q; [rewrite M' by reflexivity|rewrite M; discriminate]. destruct (c_network d); [congruence|discriminate].
  - destruct (Z_lt_le_dec 0 (c_conns c)) as [L|L]; [rewrite K by exact L|rewrite K' by exact L]; lia.
  - destruct (Z.eq_dec (c_ping c) 0) as [L|L]; [rewrite P' by exact L|rewrite P by exact L]; lia.
  - destruct (Z.eq_dec (c_dial c) 0) as [L|L]; [rewrite D' by exact L|rewrite D by exact L]; lia.
Qed.
Theorem C66_empty_address c : SetDefaults c = None <-> c_address c = [].
Proof. cfg c. destruct ad; cbn [empty]; split; congruence. Qed.

(** ** C87: the endpoint works with what was configured *)
(** everything configured but the dial timeout is what the endpoint and its connections use *)
Theorem C87_used_partial c u : NewServer c = Some u ->
  (c_network c <> [] -> u_network u = c_network c) /\ u_address u = c_address c /\ (c_name c <> [] -> u_name u = c_name c) /\
  (0 < c_conns c -> u_conns u = c_conns c) /\ 0 < u_conns u /\ u_read u = c_read c /\ u_write u = c_write c /\ (0 < c_ping c -> u_ping u = c_ping c) /\
  0 < u_ping u /\ u_rct u = c_rct c /\ u_timeout u = c_timeout c.
Proof.
  unfold NewServer. destruct (SetDefaults c) as [d|] eqn:E; [|discriminate]. intro H. injection H as <-. cbn.
  pose proof (C66_only_unset c d E) as (N & M & K & _ & P & A & R & W & T & O). pose proof (C66_values c d E) as (_ & _ & K' & _).
  split; [exact N|split; [exact A|split; [exact M|split; [exact K|split]]]].
  { destruct (Z_lt_le_dec 0 (c_conns c)) as [L|L]; [rewrite K by exact L|rewrite K' by exact L]; lia. }
  split; [exact R|split; [exact W|split; [|split; [|split; [exact T|exact O]]]]].
  - intro L. rewrite P by lia. destruct (Z.ltb_spec 0 (c_ping c)); [reflexivity|lia].
  - destruct (Z.ltb_spec 0 (c_ping d)); unfold second; lia.
Qed.
(** the dial timeout is five seconds whatever was configured *)
Theorem C87_dial_timeout_refuted c u : NewServer c = Some u -> u_dial u = 5000000000.
Proof. unfold NewServer. destruct (SetDefaults c); [|discriminate]. intro H. now injection H as <-. Qed.

(** ** C88: every network call is under the configured timeout *)
(** A deadline applies to a call if it is the last one set, and not cleared since. *)
Fixpoint bounded (timeout : Z) (cur : option Z) (l : list (Z * call)) : Prop :=
  match l with
  | [] => True
  | (_, KDeadline d) :: l => bounded timeout (Some d) l
  | (_, KClear) :: l => bounded timeout None l
  | (t, KIO) :: l => (exists d, cur = Some d /\ d <= t + timeout) /\ bounded timeout cur l
  end.
Definition unlimited (l : list (Z * call)) : Prop := forall t k, In (t, k) l -> k = KIO.
(** the times at which calls are made do not go back *)
Definition in_time (l : list (Z * Z * bool)) : Prop := Forall (fun x => fst (fst x) <= snd (fst x)) l.

Lemma bounded_app T l : forall cur m, bounded T cur l -> (forall c, bounded T c m) -> bounded T cur (l ++ m).
Proof.
  induction l as [|[t [d| |]] l IH]; intros cur m H B; cbn [app bounded] in *; auto. destruct H as [H H']. split; auto.
Qed.
Lemma ios_bounded T l : 0 < T -> in_time l -> forall k cur, (k = true -> True) -> bounded T cur (ios true (mkDl T k k) l) /\ True.
Proof.
  intros HT. induction l as [|[[t t'] ok] l IH]; intros I k cur _; [split; exact Logic.I|]. inversion_clear I as [|? ? I1 I2]. cbn [fst snd] in I1. split; [|exact Logic.I].
  cbn [ios]. unfold io. cbn [d_timeout d_checked]. destruct (Z.ltb_spec 0 T); [|lia].
  assert (E : (if k then mkDl T k k else mkDl T true true) = mkDl T true true) by now destruct k. rewrite E. cbn [d_d andb].
  apply bounded_app.
  - cbn [app bounded]. destruct ok; cbn; (split; [exists (t + T); split; [reflexivity|lia]|exact Logic.I]).
  - intro c. now apply IH.
Qed.
(** on a connection that knows deadlines, each network call is made with a deadline at most the timeout away *)
Theorem C88_every_call_is_bounded T l : 0 < T -> in_time l -> bounded T None (ios true (dl_init T) l).
Proof. intros HT I. now apply (ios_bounded T l HT I false None). Qed.
(** without a timeout, or on a connection that does not know deadlines, no deadline is ever set *)
Theorem C88_no_deadline_without_timeout can T l : T <= 0 \/ can = false -> unlimited (ios can (dl_init T) l).
Proof.
  intros H. unfold dl_init. assert (G : forall b, T <= 0 \/ can = false -> unlimited (ios can (mkDl T false b) l)); [|now apply G].
  clear H. induction l as [|[[t t'] ok] l IH]; intros b H x k Hx; [destruct Hx|]. cbn [ios] in Hx. unfold io in Hx. cbn [d_timeout d_checked] in Hx.
  destruct (Z.ltb_spec 0 T) as [L|L].
  - destruct H as [H|H]; [lia|]. subst can.
    assert (E : (if b then mkDl T false b else mkDl T false true) = mkDl T false true) by now destruct b. rewrite E in Hx. cbn [d_d andb app] in Hx. rewrite andb_false_r in Hx. cbn [app] in Hx.
    destruct Hx as [Hx|Hx]; [congruence|]. now apply (IH true (or_intror eq_refl) x k).
  - cbn [app] in Hx. destruct Hx as [Hx|Hx]; [congruence|]. now apply (IH b H x k).
Qed.
(** after a call without an error no deadline is left behind *)
Fixpoint left_over (cur : option Z) (l : list (Z * call)) : option Z :=
  match l with [] => cur | (_, KDeadline d) :: l => left_over (Some d) l | (_, KClear) :: l => left_over None l | _ :: l => left_over cur l end.
Lemma left_over_app l : forall c m, left_over c (l ++ m) = left_over (left_over c l) m.
Proof. induction l as [|[t [d| |]] l IH]; intros c m; cbn; auto. Qed.
Theorem C88_nothing_left_over can T l t t' : left_over None (ios can (dl_init T) (l ++ [(t, t', true)])) = None.
Proof.
  assert (G : forall k cur, (k = true -> can = true) -> (cur <> None -> k = true /\ 0 < T) -> left_over cur (ios can (mkDl T k k) (l ++ [(t, t', true)])) = None).
  2: { destruct (Z_lt_le_dec 0 T) as [L|L]; [apply G; congruence|]. apply G; congruence. }
  induction l as [|[[u u'] ok] l IH]; intros k cur Hk Hc.
  - cbn [app ios]. unfold io. cbn [d_timeout d_checked]. destruct (Z.ltb_spec 0 T) as [L|L].
    + destruct k; cbn [d_d].
      * cbn. reflexivity.
      * destruct can; cbn; [reflexivity|]. destruct cur; [|reflexivity]. destruct Hc as [Hc _]; [discriminate|discriminate].
    + cbn. destruct cur; [|reflexivity]. destruct Hc; [discriminate|lia].
  - cbn [app ios]. unfold io. cbn [d_timeout d_checked]. destruct (Z.ltb_spec 0 T) as [L|L].
    + destruct k; cbn [d_d].
      * rewrite left_over_app. apply IH; auto.
      * destruct can; cbn [d_d].
        -- rewrite left_over_app. apply IH; auto.
        -- cbn [app left_over]. rewrite andb_false_r. cbn [app left_over].
           assert (N : cur = None). { destruct cur; [|reflexivity]. destruct Hc as [Hc _]; [discriminate|discriminate]. } subst cur.
           clear -L. assert (Q : forall l, left_over None (ios false (mkDl T false true) l) = None); [|apply Q].
           induction l0 as [|[[u u'] ok] l0 IH]; [reflexivity|]. cbn [ios]. unfold io. cbn [d_timeout d_checked d_d]. destruct (Z.ltb_spec 0 T); [|lia]. rewrite andb_false_r. cbn. exact IH.
    + cbn [app left_over]. apply IH; [exact Hk|]. intro H. destruct (Hc H). lia.
Qed.

(** ** The hypotheses are met *)
(** "localhost:80" with nothing else set, "/tmp/s" with a name and a dial timeout of one second *)
Definition local80 : list Z := [108; 111; 99; 97; 108; 104; 111; 115; 116; 58; 56; 48].
Example ex_tcp : SetDefaults (mkCfg [] local80 [] 0 0 0 0 0 0 0) =
  Some (mkCfg s_tcp local80 (s_tcp ++ [colon] ++ local80) 1 5000000000 0 0 1000000000 0 0).
Proof. reflexivity. Qed.
Example ex_unix : exists u, NewServer (mkCfg [] [47; 116] [120] 4 second 0 7 (-1) 2 3) = Some u /\ u_network u = s_unix /\ u_conns u = 4 /\ u_dial u = 5 * second /\ u_ping u = 3600 * second.
Proof. eexists. split; [reflexivity|]. repeat split. Qed.
Example ex_deadlines : ios true (dl_init 10) [(100, 101, true); (200, 203, false); (300, 300, true)] =
  [(100, KDeadline 110); (101, KIO); (101, KClear); (200, KDeadline 210); (203, KIO); (300, KDeadline 310); (300, KIO); (300, KClear)] /\
  in_time [(100, 101, true); (200, 203, false); (300, 300, true)].
Proof. split; [reflexivity|]. repeat constructor; cbn; lia. Qed.

Print Assumptions C66_only_unset.
Print Assumptions C66_values.
Print Assumptions C66_idempotent.
Print Assumptions C66_empty_address.
Print Assumptions C87_used_partial.
Print Assumptions C87_dial_timeout_refuted.
Print Assumptions C88_every_call_is_bounded.
Print Assumptions C88_no_deadline_without_timeout.
Print Assumptions C88_nothing_left_over.
