(** Property theorem C108: what a decoder consumes, and truncated messages. *)
From Coq Require Import ZArith List Bool Arith Lia.
Import ListNotations.
From Verif Require Import Base PrimModel PrimSpec PrimProofs CodecModel CodecSpec CodecProofs CodecRead CodecProps SafeSpec SafeProofs SafeProps LocalProofs.
Open Scope Z_scope.

(** ** C108 *)
(** Whatever the type, a Read that succeeds consumed some bytes c from the front of the input, and gives the same value, leaving exactly the rest, for c followed by anything *)
Theorem C108_read_depends_on_what_it_consumes : forall t old b al x rest al', Read t old (st0 b al) = Ok (x, st0 rest al') ->
  exists c, b = c ++ rest /\ forall e, Read t old (st0 (c ++ e) al) = Ok (x, st0 e al').
Proof.
  intros t old b al x rest al' E. destruct (Read_local t old _ _ _ E eq_refl) as (_ & c & B & H). exists c. split; [exact B|]. exact H.
Qed.
(** a message cut short is never taken for a whole one *)
Theorem C108_truncation_is_detected_partial : forall t v b1 b2 old al x s, good t = true -> fits t v -> shaped t old ->
  Write t v = Ok (b1 ++ b2) -> b2 <> [] -> Read t old (st0 b1 al) = Ok (x, s) -> r_err (s_rd s) <> None.
Proof.
  intros t v b1 b2 old al x s G F S W NE E N. destruct s as [[rest e] al']. cbn in N. subst e.
  destruct (C108_read_depends_on_what_it_consumes t old b1 al x rest al' E) as (c & B & H). specialize (H (rest ++ b2)). rewrite app_assoc, <- B in H.
  destruct (C18_read_inverts_write_partial t v old [] al G F S) as (b & v' & al2 & W' & R & _). rewrite W in W'. injection W' as <-. rewrite app_nil_r, H in R.
  injection R as _ Q _. apply app_eq_nil in Q. tauto.
Qed.
(** with C107: it is rejected with an error, there is no panic *)
Theorem C108_truncation_is_rejected_partial : forall t v b1 b2 old al, good t = true -> readable t = true -> fits t v -> shaped t old ->
  Write t v = Ok (b1 ++ b2) -> b2 <> [] -> bytes_ok b1 -> exists x rest e al', Read t old (st0 b1 al) = Ok (x, mkSt (mkRd rest (Some e)) al').
Proof.
  intros t v b1 b2 old al G R F S W NE B. destruct (C107_read_returns_partial t R old b1 al B) as (x & rest & e & al' & E & _).
  pose proof (C108_truncation_is_detected_partial t v b1 b2 old al x _ G F S W NE E) as N. cbn in N. destruct e as [e|]; [|congruence]. now exists x, rest, e, al'.
Qed.
(** no encoding is a proper prefix of another *)
Theorem C108_encodings_are_prefix_free_partial : forall t v w b1 b2, good t = true -> fits t v -> fits t w -> Write t v = Ok b1 -> Write t w = Ok (b1 ++ b2) -> b2 = [].
Proof.
  intros t v w b1 b2 G F1 F2 W1 W2. pose proof (proj1 zero_shaped t) as Z.
  destruct (C18_read_inverts_write_partial t v (zero t) b2 [] G F1 Z) as (b & v' & al & E & R & _). rewrite W1 in E. injection E as <-.
  destruct (C18_read_inverts_write_partial t w (zero t) [] [] G F2 Z) as (b & w' & al2 & E & R2 & _). rewrite W2 in E. injection E as <-. rewrite app_nil_r, R in R2. now injection R2.
Qed.
(** struct{ A [2]uint32 `ber` }{[1 2]}, cut after two bytes: no error *)
Theorem C108_ber_array_refuted : Write T_berarr ([1; 2], tt) = Ok ([2; 0] ++ [0; 0; 1; 2]) /\ Read T_berarr ([0; 0], tt) (st0 [2; 0] []) = Ok (([2; 0], tt), st0 [] []).
Proof. split; vm_compute; reflexivity. Qed.
Example C108_ex_class : good T_nest = true /\ readable T_nest = true /\ shaped T_nest (zero T_nest) /\ good (TSl T_SArr1) = true.
Proof. split; [reflexivity|]. split; [reflexivity|]. split; [apply (proj1 zero_shaped)|reflexivity]. Qed.
(** every strict prefix of an encoding of 41 bytes: an error *)
Example C108_ex : let v := ((9, ([97], ([[98]; []], tt))), (Some 5, ([[1; 2]; []], tt))) in
  match Write T_nest v with
  | Ok b => length b = 41%nat /\ forallb (fun n => match Read T_nest (zero T_nest) (st0 (firstn n b) []) with Ok (_, s) => failed s | _ => false end) (seq 0 41) = true
  | _ => False
  end.
Proof. vm_compute. split; reflexivity. Qed.
Print Assumptions C108_read_depends_on_what_it_consumes. Print Assumptions C108_truncation_is_detected_partial. Print Assumptions C108_truncation_is_rejected_partial.
Print Assumptions C108_encodings_are_prefix_free_partial. Print Assumptions C108_ber_array_refuted.
