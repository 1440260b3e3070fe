(** C139: values written with their size. C140: has everything been read? *)
From Coq Require Import ZArith List Bool Arith Lia.
Import ListNotations.
From Verif Require Import Base PrimModel PrimSpec CodecModel CodecSpec CodecProofs CodecRead CodecProps SizedModel.
Open Scope Z_scope.

(** a struct with one field, tagged size(p) *)
Definition one (p : pk) (t : ty) : ty := TStruct (FCons (TgSize p) t FNil).
(** numbers, strings and []byte *)
Definition plain (t : ty) : bool := match t with TNum _ | TStr | TSl (TNum U8) => true | _ => false end.

Lemma one_sz rd p t : Sz rd (one p t) <> None -> exists z, Sz rd t = Some z.
Proof. cbn. destruct (Sz rd t) as [z|]; [now exists z|easy]. Qed.
Lemma one_write p t v b : Write (one p t) (v, tt) = Ok b -> WriteValueWithSize p t v = Ok b.
Proof.
  intro H. unfold one, Write in H. unfold WriteValueWithSize. destruct (Sz false (TStruct (FCons (TgSize p) t FNil))) eqn:E; [|discriminate].
  destruct (one_sz false p t) as [y Y]; [unfold one; congruence|]. rewrite Y.
  cbn [enc enc_flds] in H. change (drop false (TgSize p) t) with false in H. cbv iota in H. destruct (with_size p (size_of t v) (enc false false t v)) as [a| |]; cbn [bind] in H; try discriminate. now rewrite app_nil_r in H.
Qed.
Lemma one_read p t (old : val t) s (x : val t) s' : failed s = false -> Read (one p t) (old, tt) s = Ok ((x, tt), s') -> ReadValueWithSize p t old s = Ok (x, s').
Proof.
  intros F H. unfold one, Read in H. unfold ReadValueWithSize. rewrite F in *. destruct (Sz true (TStruct (FCons (TgSize p) t FNil))) eqn:E; [|discriminate].
  destruct (one_sz true p t) as [y Y]; [unfold one; congruence|]. rewrite Y. cbn [dec dec_flds] in H. change (drop true (TgSize p) t) with false in H. cbv iota in H.
  assert (G : forall (o : out (val t * st)), (do! (x, s) <- o; do! (xs, s0) <- Ok (tt, s); Ok ((x, xs), s0)) = Ok ((x, tt), s') -> o = Ok (x, s')).
  { clear. intros [[x1 s1]| |] H; cbn [bind] in H; try discriminate. congruence. }
  exact (G _ H).
Qed.

(** ** C139. ReadValueWithSize reads what WriteValueWithSize has written, for every type and value that may stand in a field with
    a size() tag (C18); fields tagged skip are not transmitted *)
Theorem C139_values_partial : forall p t (v old : val t) rest al, good (one p t) = true -> fits (one p t) (v, tt) -> shaped t old ->
  exists b v' al', WriteValueWithSize p t v = Ok b /\ ReadValueWithSize p t old (st0 (b ++ rest) al) = Ok (v', st0 rest al') /\ same t v v' /\ (no_skip t = true -> v' = v).
Proof.
  intros p t v old rest al G F S. assert (S1 : shaped (one p t) (old, tt)) by (split; [exact S|exact Logic.I]).
  destruct (C18_read_inverts_write_partial (one p t) (v, tt) (old, tt) rest al G F S1) as (b & [v' []] & al' & W & R & SM & E).
  exists b, v', al'. split; [now apply one_write|]. split; [now apply one_read|]. split; [exact (proj1 SM)|]. intro N. cbn in E. rewrite N in E. specialize (E eq_refl). now injection E.
Qed.
Print Assumptions C139_values_partial.

(** WriteWithSize writes what WriteValueWithSize does: the size, then the value *)
Theorem C139_layout : forall p t (v : val t), good (one p t) = true -> fits (one p t) (v, tt) -> WriteWithSize p t v = Ok (pre p (zlen (lay false t v)) ++ lay false t v).
Proof.
  intros p t v G F. pose proof (Write_lay (one p t) (v, tt) G F) as W. apply one_write in W. change (lay true (one p t) (v, tt)) with ((pre p (zlen (lay false t v)) ++ lay false t v) ++ []) in W. rewrite app_nil_r in W.
  assert (N : not_i64 p = true) by (unfold good in G; destruct (Sz false (one p t)), (Sz true (one p t)); try discriminate G; cbn [goodA goodF one] in G; bools; assumption).
  destruct F as [(F & P & _) _].
  destruct t as [k| | |n t|t|t|fs]; try exact W.
  - cbn [WriteWithSize]. rewrite put_fixed by exact F. cbn [lay] in *. unfold layout, zlen in *. rewrite le_enc_length in *. now rewrite prefix_pre by (try exact N; try exact P; lia).
  - cbn [WriteWithSize]. rewrite put_bytes. cbn [lay app] in *. rewrite prefix_pre; [reflexivity|exact N|unfold zlen; lia|exact P].
  - destruct t as [k| | | | | |]; try exact W. destruct k; try exact W. cbn [WriteWithSize]. rewrite put_bytes. destruct F as [_ F]. cbn [lay app] in *.
    assert (E : forall f, f = layout U8 -> flat_map f v = v) by (intros f ->; exact (bytes_u8 v F)). rewrite E in P |- * by reflexivity.
    rewrite prefix_pre; [reflexivity|exact N|unfold zlen; lia|exact P].
Qed.
Print Assumptions C139_layout.

(** ReadWithSize reads what WriteWithSize has written if it is a number, a string or []byte *)
Theorem C139_plain_partial : forall p t v old rest al, plain t = true -> not_i64 p = true -> fits t v -> pfits p (zlen (lay false t v)) ->
  exists b, WriteWithSize p t v = Ok b /\ ReadWithSize p t old (st0 (b ++ rest) al) = Ok (v, st0 rest al).
Proof.
  intros p t v old rest al PL N F P. destruct t as [k| | |n t|t|t|fs]; try discriminate.
  - eexists. split; [reflexivity|]. cbn [WriteWithSize ReadWithSize lay] in *. rewrite put_fixed by exact F. unfold layout, zlen in P. rewrite le_enc_length in P.
    rewrite prefix_pre by (try exact N; try exact P; lia). rewrite <- app_assoc. now apply C24_right_size_reads_partial.
  - eexists. split; [reflexivity|]. cbn [ReadWithSize lay app fits] in *. rewrite put_bytes, prefix_pre by (try exact N; try exact P; unfold zlen; lia). rewrite <- app_assoc.
    cbn [failed st0 s_rd r_err]. fold (st0 (pre p (zlen v) ++ v ++ rest) al). rewrite rprefix_ok by (try exact N; try exact P; unfold zlen; lia). cbn [bind]. now rewrite take_ok.
  - destruct t as [k| | | | | |]; try discriminate. destruct k; try discriminate. destruct F as [_ F]. assert (E : flat_map (lay true (TNum U8)) v = v) by (exact (bytes_u8 v F)).
    cbn [lay app] in P. assert (P' : pfits p (zlen v)) by (rewrite <- E; exact P).
    eexists. split; [reflexivity|]. cbn [ReadWithSize]. rewrite put_bytes, prefix_pre by (try exact N; try exact P'; unfold zlen; lia). rewrite <- app_assoc.
    cbn [failed st0 s_rd r_err]. fold (st0 (pre p (zlen v) ++ v ++ rest) al). rewrite rprefix_ok by (try exact N; try exact P'; unfold zlen; lia). cbn [bind]. now rewrite take_ok.
Qed.
Print Assumptions C139_plain_partial.

(** For all other types ReadWithSize does not read the size; it takes the bytes of the size for the beginning of the value. *)
Theorem C139_size_not_read_refuted : forall p t old s, plain t = false -> match t with TSl (TNum _) => False | _ => True end -> failed s = false -> ReadWithSize p t old s = Read t old s.
Proof.
  intros p t old s PL NS F. destruct t as [k| | |n t|t|t|fs]; try discriminate; try reflexivity. destruct t; try reflexivity. destruct NS.
Qed.
Print Assumptions C139_size_not_read_refuted.
(** a struct with one number: another value, without error, and a byte is left over *)
Theorem C139_struct_refuted : let t := TStruct (FCons TgAuto (TNum U32) FNil) in
  exists b, WriteWithSize P8 t (7, tt) = Ok b /\ ReadValueWithSize P8 t (0, tt) (st0 b []) = Ok ((7, tt), st0 [] []) /\ ReadWithSize P8 t (0, tt) (st0 b []) = Ok ((1796, tt), st0 [0] []).
Proof. eexists. split; [reflexivity|]. split; reflexivity. Qed.
Print Assumptions C139_struct_refuted.
Example C139_ex : forall p, not_i64 p = true -> let t := TSl (TStruct (FCons TgAuto (TNum I16) (FCons (TgSize PBer) TStr FNil))) in
  good (one p t) = true /\ fits (one p t) ([(-2, ([97; 98], tt)); (5, ([], tt))], tt) /\ plain t = false /\ shaped t [].
Proof.
  intros p N. split; [destruct p; try discriminate; reflexivity|]. split; [|split; [reflexivity|constructor]]. cbn. split; [|exact Logic.I]. split.
  - split; [reflexivity|]. repeat constructor; cbn; unfold kind_ok; cbn; try lia; reflexivity.
  - split; [|exact Logic.I]. destruct p; try discriminate; reflexivity.
Qed.
Example C139_ex_plain : plain TStr = true /\ fits TStr [1; 2; 3] /\ pfits P8 (zlen (lay false TStr [1; 2; 3])).
Proof. split; [reflexivity|]. split; [split; [repeat constructor; cbn; lia|reflexivity]|reflexivity]. Qed.

(** ** C140. Done tells whether everything has been read without error, and Error gives a reason if not *)
Theorem C140_done : forall r, (Done r = true <-> r_body r = [] /\ r_err r = None) /\ (Error r = None <-> Done r = true).
Proof.
  intro r. unfold Done, Error. destruct r as [[|x b] [e|]]; cbn [r_body r_err]; unfold zlen; cbn [length].
  - intuition discriminate.
  - cbn. intuition.
  - rewrite andb_false_r. intuition discriminate.
  - destruct (Z.eqb_spec (Z.of_nat (S (length b))) 0) as [E|_]; [lia|]. destruct (Z.ltb_spec 0 (Z.of_nat (S (length b)))) as [_|E]; [|lia]. cbn. intuition discriminate.
Qed.
(** After a value has been read from the bytes it was written to, Done holds exactly if nothing follows it. *)
Theorem C140_message_partial : forall t v old rest al, good t = true -> fits t v -> shaped t old ->
  exists b v' s, Write t v = Ok b /\ Read t old (st0 (b ++ rest) al) = Ok (v', s) /\ (Done (s_rd s) = true <-> rest = []) /\ (Error (s_rd s) = None <-> rest = []).
Proof.
  intros t v old rest al G F S. destruct (C18_read_inverts_write_partial t v old rest al G F S) as (b & v' & al' & W & R & _). exists b, v', (st0 rest al'). split; [exact W|]. split; [exact R|].
  assert (H : Done (s_rd (st0 rest al')) = true <-> rest = []).
  { rewrite (proj1 (C140_done _)). cbn. tauto. }
  split; [exact H|]. rewrite (proj2 (C140_done _)). exact H.
Qed.
Print Assumptions C140_done. Print Assumptions C140_message_partial.
Example C140_ex : exists s, Read (TNum U32) 0 (st0 [1; 0; 0; 0; 9] []) = Ok (1, s) /\ Done (s_rd s) = false /\ Error (s_rd s) <> None.
Proof. eexists. split; [reflexivity|]. split; [reflexivity|discriminate]. Qed.
