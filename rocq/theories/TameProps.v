(** C107 and C134 again: bytes in which no length can come out negative. *)
From Coq Require Import ZArith List Bool Arith Lia.
Import ListNotations.
From Verif Require Import Base PrimModel PrimSpec PrimProofs CodecModel CodecSpec CodecProofs CodecRead SboxModel SboxSpec SboxProofs SafeSpec TameSpec TameProofs DestModel.
Open Scope Z_scope.

Lemma with_u32 {A} s (old : A) g : wb s -> (forall n s', 0 <= n -> wb s' -> Runs s' (g n s')) -> Runs s (do! (c, s) <- call (RFixed U32) s; if failed s then Ok (old, s) else g (num c) s).
Proof.
  intros W G. destruct (call_runs (RFixed U32) s W Logic.I) as (v & s1 & E & M). pose proof (num_nn U32 s v s1 Logic.I W E) as N. rewrite E. cbn [bind].
  assert (R : Runs s1 (if failed s1 then Ok (old, s1) else g (num v) s1)) by (destruct (failed s1); [apply runs_ok, M|apply G; [exact N|apply M]]).
  destruct R as (y & s2 & E2 & M2). exists y, s2. split; [exact E2|now apply (mono_trans _ s1)].
Qed.
Lemma Read_runs t old s : read_tame t = true -> wb s -> Runs s (Read t old s).
Proof.
  intros R W. unfold read_tame in R.
  assert (G : Runs s (if failed s then Ok (old, s) else match Sz true t with None => Panic | Some _ => dec Auto t old s end)).
  { destruct (failed s); [now apply runs_ok|]. destruct (Sz true t); [|discriminate]. apply (proj1 dec_tame t Auto R old s W). }
  assert (T : forall (o : list Z) n s', 0 <= n -> wb s' -> Runs s' (take n s')) by (intros o n s' N W'; destruct (take_runs n s' N W') as (b & s2 & E & M & _); now exists b, s2).
  destruct t as [k|k| |n t|t|t|fs]; try exact G; cbn [Read].
  - destruct (failed s); [now apply runs_ok|]. apply with_u32; [exact W|]. intros n s' N W'. now apply T.
  - assert (B : forall k (old : list Z), Runs s (if failed s then Ok (old, s) else do! (c, s) <- call (RFixed U32) s; if failed s then Ok (old, s) else do! (l, s) <- make_slice (TNum k) (num c) s; do! (v, s) <- call (RBulk k l) s; Ok (nums v, s))).
    { clear - W. intros k old. destruct (failed s); [now apply runs_ok|]. apply (with_u32 s old (fun n s => do! (l, s) <- make_slice (TNum k) n s; do! (v, s) <- call (RBulk k l) s; Ok (nums v, s))); [exact W|]. intros n s' N W'.
      apply runs_bind; [now apply make_runs|]. intros l s2 _ M2. apply runs_bind; [apply call_runs; [apply M2|exact Logic.I]|]. intros v s3 _ M3. apply runs_ok, M3. }
    destruct t as [[]| | | | | |]; try exact G; try apply B. destruct (failed s); [now apply runs_ok|]. apply with_u32; [exact W|]. intros n s' N W'. now apply T.
Qed.
Lemma ReadTail_runs t old s : tail_tame t = true -> wb s -> Runs s (ReadTail t old s).
Proof.
  intros R W. unfold ReadTail. destruct (failed s) eqn:F; [now apply runs_ok|]. cbv zeta. apply runs_bind.
  2: { intros x s' _ M. destruct (_ =? 0); [apply runs_ok, M|]. eexists _, _. split; [reflexivity|]. destruct M as [A B C]. now split. }
  assert (G : forall t (old : val t), match Sz true t with None => false | Some _ => tamed CodecModel.Tail t end = true -> Runs s (match Sz true t with None => Panic | Some _ => dec CodecModel.Tail t old s end)).
  { intros t0 old0 R0. destruct (Sz true t0); [|discriminate]. apply (proj1 dec_tame t0 CodecModel.Tail R0 old0 s W). }
  assert (B : forall k, Runs s (do! (l, s) <- make_slice (TNum k) (zlen (r_body (s_rd s)) / Z.of_nat (width k)) s; do! (v, s) <- call (RBulk k l) s; Ok (nums v, s))).
  { intro k. apply runs_bind; [apply make_runs; [|exact W]; apply Z.div_pos; [unfold zlen; lia|pose proof (width_pos k); lia]|]. intros l s2 _ M2. apply runs_bind; [apply call_runs; [apply M2|exact Logic.I]|]. intros v s3 _ M3. apply runs_ok, M3. }
  destruct t as [k|k| |n t|t|t|fs]; try (now apply G). destruct t as [[]| | | | | |]; try (now apply G); try apply B.
  apply runs_bind; [now apply call_runs|]. intros v s' _ M. apply runs_ok, M.
Qed.

(** Read of tame bytes into a variable of a [read_tame] type returns, with a value or an error; nothing but a suffix-length worth of input is left and none is invented *)
Theorem C107_tame_partial : forall t, read_tame t = true -> forall old b al, bytes_ok b -> tame b ->
  exists x rest e al', Read t old (mkSt (mkRd b None) al) = Ok (x, mkSt (mkRd rest e) al') /\ (length rest <= length b)%nat.
Proof.
  intros t R old b al B0 T0. pose proof (conj B0 T0 : good_bytes b) as W. destruct (Read_runs t old (mkSt (mkRd b None) al) R W) as (x & s' & E & M). destruct s' as [[rest e] al'].
  exists x, rest, e, al'. split; [exact E|apply M].
Qed.
Theorem C107_tame_tail_partial : forall t, tail_tame t = true -> forall old b al, bytes_ok b -> tame b ->
  exists x rest e al', ReadTail t old (mkSt (mkRd b None) al) = Ok (x, mkSt (mkRd rest e) al') /\ (rest = [] \/ e <> None).
Proof.
  intros t R old b al B0 T0. pose proof (conj B0 T0 : good_bytes b) as W. destruct (ReadTail_runs t old (mkSt (mkRd b None) al) R W) as (x & s' & E & M). destruct s' as [[rest e] al'].
  exists x, rest, e, al'. split; [exact E|]. clear M. unfold ReadTail in E. cbn [failed s_rd r_err] in E. cbv zeta in E.
  match type of E with bind ?o _ = _ => destruct o as [[y s1]| |] end; cbn [bind] in E; try discriminate. destruct (zlen (r_body (s_rd s1)) =? 0) eqn:Z.
  - left. injection E as -> ->. cbn in Z. apply Z.eqb_eq in Z. unfold zlen in Z. destruct rest; [reflexivity|cbn in Z; lia].
  - right. unfold fail in E. injection E as <- <- <- <-. discriminate.
Qed.
(** ** Any bytes *)
Lemma rsized_runs t : field_tame t = true -> forall old s, wb s -> Runs s (rsized t old s).
Proof.
  intros H old s W. unfold field_tame in H. unfold rsized. pose proof (auto_take t PBer) as AT. destruct (dec_auto_take t PBer). { apply eats_runs, AT; [reflexivity|exact W]. }
  rewrite AT in H. cbn [orb] in H. apply andb_true_iff in H. destruct H as [H S3]. apply andb_true_iff in H. destruct H as [S1 S2].
  apply eats_runs, size_runs; trivial; [intros x s0 W0; apply (proj1 dec_tame t Fixed S2 x s0 W0)|]. intro T. rewrite T in S3. intros x s0 W0. apply (proj1 dec_tame t CodecModel.Tail S3 x s0 W0).
Qed.
Lemma r_u32_runs s : wb s -> exists n s', r_u32 s = Ok (n, s') /\ mono s s' /\ 0 <= n.
Proof.
  intro W. unfold r_u32. destruct (call_runs (RFixed U32) s W Logic.I) as (v & s' & E & M). rewrite E. cbn [bind]. exists (num v), s'. split; [reflexivity|split; [exact M|]].
  now apply (num_nn U32 s v s').
Qed.
Lemma r_intvar_nn s n s' : wb s -> r_intvar s = Ok (n, s') -> 0 <= n.
Proof. intros W E. unfold r_intvar in E. destruct (call RVar s) as [[v q]| |] eqn:C; try discriminate E. injection E as <- <-. now apply (var_nn s v q). Qed.
Lemma r_intvar_runs s : wb s -> Runs s (r_intvar s).
Proof. intro W. unfold r_intvar. apply runs_bind; [now apply call_runs|]. intros v s' _ M. apply runs_ok, M. Qed.
Lemma fail_mono s s' e : mono s s' -> mono s (fail s' e).
Proof. intros [A B C]. split; trivial. Qed.
Lemma rd_list_runs t : field_tame t = true -> forall l old s, length old = l -> wb s -> Runs s (rd_list t l old s).
Proof.
  intro F. induction l as [|l IH]; intros old s L W; cbn [rd_list]; [now apply runs_ok|]. destruct old as [|o old]; [discriminate|]. injection L as L.
  apply runs_bind; [now apply rsized_runs|]. intros y s1 _ M. apply runs_bind; [apply IH; [exact L|apply M]|]. intros ys s2 _ M2. apply runs_ok, M2.
Qed.
Lemma rd_flds_runs : forall fs k olds s, fields_tame fs = true -> wb s -> Runs s (rd_flds k fs olds s).
Proof.
  induction fs as [|tg t fs IH]; intros k olds s F W; cbn [rd_flds]; [now apply runs_ok|]. destruct olds as [o olds]. cbn [fields_tame] in F. apply andb_true_iff in F. destruct F as [F1 F].
  destruct (drop true tg t); cbn [orb] in F1.
  - apply runs_bind; [now apply IH|]. intros x s1 _ M. apply runs_ok, M.
  - destruct (0 <? k); [|now apply runs_ok]. apply runs_bind; [now apply rsized_runs|]. intros y s1 _ M. apply runs_bind; [apply IH; [exact F|apply M]|]. intros ys s2 _ M2. apply runs_ok, M2.
Qed.
Lemma fixed_runs t old s : (forall x s, wb s -> Runs s (dec Fixed t x s)) -> wb s ->
  Runs s (do! (ok, s) <- one_field (sz0 true t) s; if ok : bool then dec Fixed t old s else Ok (old, s)).
Proof.
  intros F W. apply (runs_bind s (one_field (sz0 true t) s) (fun ok s => if ok : bool then dec Fixed t old s else Ok (old, s))).
  - unfold one_field. destruct (r_u32_runs s W) as (n & s1 & E & M & _). rewrite E. cbn [bind]. destruct (1 <=? n).
    + destruct (r_intvar_runs s1 (oWb _ _ M)) as (z & s2 & E2 & M2). rewrite E2. cbn [bind]. pose proof (mono_trans _ _ _ M M2) as MM.
      destruct (z =? sz0 true t); eexists _, _; (split; [reflexivity|]); [exact MM|now apply fail_mono].
    + eexists _, _. split; [reflexivity|now apply fail_mono].
  - intros ok s1 _ M. destruct ok; [apply F, M|apply runs_ok, M].
Qed.
Lemma sb_read_runs : forall t old s, tuple_tame t = true -> wb s -> Runs s (sb_read t old s).
Proof.
  induction t as [k|k| |n t IH|t IH|t IH|fs]; intros old s F W; try discriminate F.
  - cbn [sb_read]. apply fixed_runs; [|exact W]. intros x s0 W0. apply (proj1 dec_tame (TNum k) Fixed eq_refl x s0 W0).
  - cbn [sb_read]. destruct (r_u32_runs s W) as (l & s1 & E & M & _). rewrite E. cbn [bind]. destruct (1 <=? l).
    + destruct (r_intvar_runs s1 (oWb _ _ M)) as (z & s2 & E2 & M2). pose proof (r_intvar_nn _ _ _ (oWb _ _ M) E2) as N. rewrite E2. cbn [bind].
      destruct (call_runs (RString z) s2 (oWb _ _ M2) N) as (v & s3 & E3 & M3). rewrite E3. cbn [bind]. eexists _, _. split; [reflexivity|exact (mono_trans _ _ _ (mono_trans _ _ _ M M2) M3)].
    + eexists _, _. split; [reflexivity|now apply fail_mono].
  - destruct t as [[]| | | | | |]; try discriminate F. cbn [sb_read]. apply fixed_runs; [|exact W]. intros x s0 W0. apply (proj1 dec_tame (TArr n (TNum U8)) Fixed eq_refl x s0 W0).
  - cbn [tuple_tame] in F. destruct (u8_dec t) as [->|U].
    + cbn [sb_read]. destruct (r_u32_runs s W) as (l & s1 & E & M & _). rewrite E. cbn [bind]. destruct (1 <=? l).
      * destruct (rsized_runs (TSl (TNum U8)) eq_refl old s1 (oWb _ _ M)) as (x & s2 & E2 & M2). exists x, s2. split; [exact E2|exact (mono_trans _ _ _ M M2)].
      * eexists _, _. split; [reflexivity|now apply fail_mono].
    + assert (F' : field_tame t = true) by (destruct t as [[]| | | | | |]; try discriminate U; exact F). clear F. rename F' into F.
      rewrite (proj2 (sb_read_list t U 0)). destruct (r_u32_runs s W) as (l & s1 & E & M & N). rewrite E. cbn [bind].
      unfold make_slice. destruct (Z.ltb_spec l 0); [lia|]. cbn [bind]. 
      destruct (rd_list_runs t F (Z.to_nat l) (repeat (zero t) (Z.to_nat l)) (mkSt (s_rd s1) (s_alloc s1 ++ [l])) (repeat_length _ _) (oWb _ _ M)) as (x & s2 & E2 & M2).
      exists x, s2. split; [exact E2|]. destruct M as [A1 A2 A3], M2 as [B1 B2 B3]. split; [exact B1|intro Q; apply B2, A2, Q|unfold body in *; cbn [s_rd] in *; lia].
  - cbn [sb_read]. apply runs_bind; [now apply IH|]. intros x s1 _ M. apply runs_ok, M.
  - cbn [sb_read]. destruct (r_u32_runs s W) as (l & s1 & E & M & N). rewrite E. cbn [bind]. destruct (rd_flds_runs fs l old s1 F (oWb _ _ M)) as (x & s2 & E2 & M2).
    exists x, s2. split; [exact E2|exact (mono_trans _ _ _ M M2)].
Qed.
(** ** C134: a tuple of tame bytes *)
Theorem C134_tame_raw_partial t old b al : tuple_tame t = true -> Sz true t <> None -> bytes_ok b -> tame b -> exists x s, ReadRawTuple t old (mkSt (mkRd b None) al) = Ok (x, s).
Proof.
  intros F H B0 T0. pose proof (conj B0 T0 : good_bytes b) as B. unfold ReadRawTuple. destruct (Sz true t); [|now destruct H]. destruct (sb_read_runs t old (mkSt (mkRd b None) al) F B) as (x & s & E & _). now exists x, s.
Qed.
Theorem C134_tame_first_partial t old b : tuple_tame t = true -> Sz true t <> None -> bytes_ok b -> tame b -> exists x, ReadFirst t old b = Ok x.
Proof.
  intros F H B0 T0. pose proof (conj B0 T0 : good_bytes b) as B. unfold ReadFirst. destruct (r_u32_runs (mkSt (mkRd b None) []) B) as (n & s & E & M & N). rewrite E. cbn [bind]. destruct (0 <? n); [|eauto].
  destruct (r_u32_runs s (oWb _ _ M)) as (sz & s1 & E1 & M1 & N1). rewrite E1. cbn [bind]. destruct (r_err (s_rd s1)); [eauto|].
  destruct (take_runs (sz + 4) s1 ltac:(lia) (oWb _ _ M1)) as (c & s2 & E2 & M2 & B2). unfold take in E2. destruct (call (RSlice (sz + 4)) s1) as [[v s3]| |]; cbn [bind] in E2; try discriminate E2. injection E2 as <- <-. cbn [bind].
  unfold sub. destruct (C134_tame_raw_partial t old (nums v) (s_alloc s3) F H (proj1 B2) (proj2 B2)) as (x & q & ->). cbn [bind]. eauto.
Qed.
Lemma one_tuple_runs t old r : tuple_tame t = true -> good_bytes (r_body (r0 r)) -> exists x e q, one_tuple t old r = Ok (x, e, q) /\ good_bytes (r_body (r0 q)).
Proof.
  intros F B. unfold one_tuple. destruct (r_err (r0 r)); [eexists _, _, _; split; [reflexivity|exact B]|].
  destruct (r_u32_runs (mkSt (r0 r) (r_al r)) B) as (sz & s1 & E1 & M1 & N1). rewrite E1. cbn [bind].
  destruct (take_runs (sz + 4) s1 ltac:(lia) (oWb _ _ M1)) as (c & s2 & E2 & M2 & B2). unfold take in E2. destruct (call (RSlice (sz + 4)) s1) as [[v s3]| |]; cbn [bind] in E2; try discriminate E2. injection E2 as <- <-. cbn [bind].
  destruct (failed s3); [eexists _, _, _; split; [reflexivity|exact (oWb _ _ M2)]|].
  destruct (sb_read_runs t old (mkSt (mkRd (nums v) (r_err (r1 r))) (s_alloc s3)) F B2) as (x & s & -> & _). cbn [bind]. eexists _, _, _. split; [reflexivity|exact (oWb _ _ M2)].
Qed.
Lemma fill_runs t : tuple_tame t = true -> forall old k n r, good_bytes (r_body (r0 r)) -> exists x, fill (one_tuple t) k old n r = Ok x.
Proof.
  intro F. induction old as [|o old IH]; intros k n r B; cbn [fill]; [eauto|]. destruct (k <=? 0); [eauto|].
  destruct (one_tuple_runs t o r F B) as (x & e & q & -> & B2). cbn [bind]. destruct e; [eauto|]. destruct (IH (k - 1) (n + 1) q B2) as [[[ys m] r2] ->]. cbn [bind]. eauto.
Qed.
(** into a slice or an array of such a type, or one such value *)
Theorem C134_tame_many_partial t n olds old b : tuple_tame t = true -> Sz true t <> None -> SboxModel.readable t = true -> bytes_ok b -> tame b ->
  (exists x, ReadManyInto (Var (TSl t) old) b = Ok x) /\ (exists x, ReadManyInto (Var (TArr n t) olds) b = Ok x).
Proof.
  intros F H R B0 T0. pose proof (conj B0 T0 : good_bytes b) as B. unfold ReadManyInto. destruct (r_u32_runs (mkSt (mkRd b None) []) B) as (m & s & E & M & N). rewrite E. cbn [bind read_interface read_var]. unfold read_slice, read_array.
  destruct (Sz true t); [|now destruct H]. rewrite R. unfold make_slice. destruct (Z.ltb_spec m 0); [lia|]. cbn [bind s_rd s_alloc]. unfold gave. split.
  - destruct (fill_runs t F (repeat (zero t) (Z.to_nat m)) m 0 (mkR2 (s_rd s) (mkRd [] None) (s_alloc s ++ [m])) (oWb _ _ M)) as [[[l k] q] ->]. cbn [bind]. eauto.
  - destruct (fill_runs t F olds m 0 (mkR2 (s_rd s) (mkRd [] None) (s_alloc s)) (oWb _ _ M)) as [[[l k] q] ->]. cbn [bind]. eauto.
Qed.

(** a struct with strings, a []byte and a nested struct; the bytes of "bob" in it; and bytes that are not tame *)
Definition person : ty := TStruct (FCons TgAuto TStr (FCons TgAuto (TNum U32) (FCons TgAuto (TSl (TNum U8)) (FCons TgAuto (TSl TStr) FNil)))).
Lemma tame_len b : (length b < 9)%nat -> tame b.
Proof. intros L u n v E N. subst b. rewrite !app_length in L. lia. Qed.
Example C134_tame_example : tuple_tame person = true /\ Sz true person <> None /\ tuple_tame TStr = true /\ tuple_tame (TSl TStr) = true /\ read_tame (TStruct (FCons (TgSize PBer) TStr (FCons (TgCnt PBer) (TSl (TNum U16)) FNil))) = true /\
  tame [2; 0; 0; 0; 3; 98; 111; 98] /\ ~ tame [1; 0; 0; 0; 129; 255; 255; 255; 255; 255; 255; 255; 255; 127].
Proof.
  split; [reflexivity|]. split; [discriminate|]. split; [reflexivity|]. split; [reflexivity|]. split; [reflexivity|]. split; [apply tame_len; cbn; lia|].
  intro T. apply (T [1; 0; 0; 0] [129; 255; 255; 255; 255; 255; 255; 255; 255] [127] eq_refl eq_refl). repeat constructor; lia.
Qed.

Print Assumptions C107_tame_partial.
Print Assumptions C107_tame_tail_partial.
Print Assumptions C134_tame_raw_partial.
Print Assumptions C134_tame_first_partial.
Print Assumptions C134_tame_many_partial.
