From Coq Require Import ZArith List Bool Arith Lia.
Import ListNotations.
From Verif Require Import Base PrimModel PrimSpec PrimProofs CodecModel CodecSpec CodecProofs CodecRead SboxModel SboxSpec SboxProofs SafeSpec SafeProofs DestModel DestSpec.
Open Scope Z_scope.

(** ** The loops *)
Lemma fill_all t : forall old n r k, zlen old <= k -> fill (one_tuple t) k old n r = tuple_loop t old n r.
Proof.
  induction old as [|x old IH]; intros n r k L; [reflexivity|]. cbn [fill tuple_loop]. rewrite zlen_cons in L. pose proof (zlen_nn old).
  destruct (Z.leb_spec k 0); [lia|]. destruct (one_tuple t x r) as [[[y e] q]| |]; cbn [bind]; try reflexivity. destruct e; [reflexivity|]. now rewrite IH by lia.
Qed.
Lemma into_slice t b old : ReadManyInto (Var (TSl t) old) b =
  match ReadMany t b with Ok m => Ok (mkGot (Var (TSl t) (m_slice t m)) (m_read t m) (m_total t m) (m_err t m) (m_alloc t m)) | Panic => Panic | Hang => Hang end.
Proof.
  unfold ReadManyInto, read_interface, read_var, read_slice, ReadMany, gave. destruct (r_u32 _) as [[n s]| |] eqn:E; cbn [bind].
  - destruct (Sz true t); [|reflexivity]. destruct (SboxModel.readable t); [|reflexivity]. unfold make_slice. destruct (Z.ltb_spec n 0) as [L|L]; cbn [bind]; [reflexivity|].
    rewrite fill_all by (unfold zlen; rewrite repeat_length; lia). destruct (tuple_loop _ _ _ _) as [[[l m] r]| |]; reflexivity.
  - revert E. unfold r_u32, call. destruct (r_call _ _) as [[? ?]|] eqn:R; cbn [bind]; try discriminate. unfold r_call in R. cbn [s_rd r_err r_body] in R. now destruct (length b <? width U32)%nat.
  - revert E. unfold r_u32, call. destruct (r_call _ _) as [[? ?]|]; cbn [bind]; discriminate.
Qed.
Lemma fill_stop {A} (f : A -> rpair -> out (A * bool * rpair)) k old n r : k <= 0 -> fill f k old n r = Ok (old, n, r).
Proof. intro L. destruct old; [reflexivity|]. cbn [fill]. now destruct (Z.leb_spec k 0); [|lia]. Qed.
(** tuples that are read one by one *)
Definition Reads {A} (f : A -> rpair -> out (A * bool * rpair)) (ok : A -> Prop) (P : tuple -> A -> A -> Prop) (tp : tuple) : Prop :=
  forall old b1 rest al, ok old -> exists x b2 al', f old (mkR2 (mkRd (sized_bytes tp ++ rest) None) (mkRd b1 None) al) =
    Ok (x, false, mkR2 (mkRd rest None) (mkRd b2 None) al') /\ P tp old x.
Lemma fill_reads {A} (f : A -> rpair -> out (A * bool * rpair)) ok P : forall ts olds n b1 rest al, Forall (Reads f ok P) ts -> Forall ok olds ->
  exists news b2 al' rest', fill f (zlen ts) olds n (mkR2 (mkRd (flat_map sized_bytes ts ++ rest) None) (mkRd b1 None) al) =
    Ok (news ++ skipn (length news) olds, n + zlen news, mkR2 (mkRd rest' None) (mkRd b2 None) al') /\
    length news = Nat.min (length ts) (length olds) /\
    (forall i tp o x, nth_error ts i = Some tp -> nth_error olds i = Some o -> nth_error news i = Some x -> P tp o x).
Proof.
  induction ts as [|tp ts IH]; intros olds n b1 rest al F O.
  - exists [], b1, al, rest. rewrite fill_stop by (unfold zlen; cbn; lia). split; [|split; [reflexivity|intros [|i]; discriminate]].
    cbn [length skipn app]. unfold zlen; cbn [length]. now rewrite Z.add_0_r.
  - destruct olds as [|o olds].
    { exists [], b1, al. eexists. cbn [fill length skipn app]. unfold zlen; cbn [length]. rewrite Z.add_0_r. split; [reflexivity|split; [reflexivity|intros [|i] ? ? ?; discriminate]]. }
    apply Forall_cons_iff in F, O. destruct F as [F1 F], O as [O1 O]. cbn [flat_map]. rewrite <- app_assoc.
    destruct (F1 o b1 (flat_map sized_bytes ts ++ rest) al O1) as (x & b2 & al1 & E1 & P1).
    destruct (IH olds (n + 1) b2 rest al1 F O) as (news & b3 & al2 & rest' & E2 & L2 & P2).
    exists (x :: news), b3, al2, rest'. split; [|split; [cbn [length Nat.min]; now rewrite L2|]].
    + cbn [fill]. rewrite zlen_cons. pose proof (zlen_nn ts). destruct (Z.leb_spec (1 + zlen ts) 0); [lia|]. rewrite E1. cbn [bind].
      rewrite Z.add_simpl_l, E2. cbn [bind length skipn app]. rewrite zlen_cons. now rewrite Z.add_assoc.
    + intros [|i] tp' o' x'; cbn [nth_error]; [|apply P2]. intros H1 H2 H3. injection H1 as <-. injection H2 as <-. injection H3 as <-. exact P1.
Qed.
(** a tuple whose bytes are read by sb_read, with something perhaps left over *)
Lemma one_tuple_reads t (ok : val t -> Prop) (P : tuple -> val t -> val t -> Prop) tp : zlen (flat_map field_bytes tp) < 2 ^ 32 ->
  (forall old al, ok old -> exists x left al', sb_read t old (st0 (tuple_bytes tp) al) = Ok (x, st0 left al') /\ P tp old x) -> Reads (one_tuple t) ok P tp.
Proof.
  intros Sm H old b1 rest al O. destruct (H old al O) as (x & left & al' & E & R). exists x, left, al'. split; [|exact R].
  unfold one_tuple. cbn [r0 r1 r_al r_err]. pose proof (sized_head tp rest al Sm) as Q. unfold st0 in Q at 1.
  destruct (r_u32 (mkSt (mkRd (sized_bytes tp ++ rest) None) al)) as [[sz s]| |]; cbn [bind] in Q |- *; try discriminate Q.
  rewrite Q. cbn [bind failed st0 s_rd r_err nums s_alloc]. unfold st0 in E. rewrite E. reflexivity.
Qed.
Lemma total_ok ts : zlen ts < 2 ^ 32 -> r_u32 (mkSt (mkRd (response ts) None) []) = Ok (zlen ts, mkSt (mkRd (flat_map sized_bytes ts) None) []).
Proof. intro L. unfold response. apply r_u32_ok. split; [apply zlen_nn|exact L]. Qed.
Lemma good_sz t : good t = true -> tuple_good false t = true /\ exists z, Sz true t = Some z.
Proof. unfold good, fill_ok. intro G. apply andb_prop in G. destruct G as [G P]. split; [exact G|]. destruct (Sz false t), (Sz true t) as [z2|]; try discriminate P. now exists z2. Qed.

(** ** Structs *)
Lemma rd_flds_suits addr : forall fs f olds rest al, sfields_good addr fs = true -> suits f fs -> shaped_flds fs olds ->
  exists news left al', rd_flds (zlen f) fs olds (st0 (flat_map field_bytes f ++ rest) al) = Ok (news, st0 (left ++ rest) al') /\ filled f fs olds news.
Proof.
  induction fs as [|tg t fs IH]; intros f olds rest al G U S.
  - exists tt, (flat_map field_bytes f), al. split; [reflexivity|exact I].
  - destruct olds as [o olds]. destruct S as [S1 S2]. cbn [sfields_good] in G. apply andb_prop in G. destruct G as [G1 G2].
    cbn [rd_flds]. 
    assert (X : match tg with TgSkip => drop true tg t = true | _ => drop true tg t = false /\ size_ok addr t = true end).
    { destruct tg; [reflexivity|..]; bools; (split; [assumption|assumption]). }
    destruct tg as [| |p|p|].
    { rewrite X. cbn [suits] in U. destruct (IH f olds rest al G2 U S2) as (xs & left & al1 & E & R). exists (o, xs), left, al1. rewrite E. cbn [bind filled]. split; [reflexivity|split; [reflexivity|exact R]]. }
    all: destruct X as [-> X]; cbn [suits] in U; destruct f as [|b f];
      [ exists (o, olds), [], al; cbn [zlen length Z.of_nat Z.ltb Z.compare flat_map app filled]; split; [reflexivity|split; [reflexivity|]];
        clear -fs; induction fs as [|tg t fs IH]; [exact I|]; destruct olds as [o olds]; cbn [filled]; destruct tg; (split; [reflexivity|apply IH])
      | destruct U as [(v & F1 & Ev) U];
        destruct (rsized_ok addr t v o (flat_map field_bytes f ++ rest) X F1 S1 al) as (y & al1 & E1 & R1);
        destruct (IH f olds rest al1 G2 U S2) as (xs & left & al2 & E & R); exists (y, xs), left, al2;
        (split; [|cbn [filled]; split; [exists v; now split|exact R]]);
        rewrite zlen_cons; (destruct (Z.ltb_spec 0 (1 + zlen f)) as [_|Q]; [|pose proof (zlen_nn f); lia]);
        cbn [flat_map]; rewrite <- app_assoc, <- Ev, E1; cbn [bind]; rewrite Z.add_simpl_l, E; reflexivity ].
Qed.
Lemma struct_suits fs f olds rest al addr : sfields_good addr fs = true -> suits f fs -> shaped_flds fs olds -> zlen f < 2 ^ 32 ->
  exists news left al', sb_read (TStruct fs) olds (st0 (tuple_bytes f ++ rest) al) = Ok (news, st0 (left ++ rest) al') /\ filled f fs olds news.
Proof. intros G U S L. cbn [sb_read]. rewrite head_ok by exact L. cbn [bind]. now apply (rd_flds_suits addr). Qed.

(** ** Arrays that are too short *)
Lemma rd_list_long t : forall l old s, (length old < l)%nat -> forall x, rd_list t l old s <> Ok x.
Proof.
  induction l as [|l IH]; intros old s L x; [lia|]. cbn [rd_list]. destruct old as [|o old]; [discriminate|]. cbn [length] in L.
  destruct (rsized t o s) as [[y q]| |]; cbn [bind]; try discriminate. specialize (IH old q ltac:(lia)). destruct (rd_list t l old q) as [z| |]; cbn [bind]; try discriminate. destruct (IH z eq_refl).
Qed.

(** ** Any bytes *)
Lemma rsized_runs t : field_safe t = true -> forall old s, wb s -> Runs s (rsized t old s).
Proof.
  intros H old s W. unfold field_safe in H. apply andb_true_iff in H. destruct H as [H S3]. apply andb_true_iff in H. destruct H as [H S2]. apply andb_true_iff in H. destruct H as [H S1].
  apply negb_true_iff in H. unfold rsized. pose proof (auto_take t PBer) as AT. destruct (dec_auto_take t PBer). { destruct AT. congruence. }
  apply eats_runs, size_runs; trivial; [intros x s0 W0; apply (proj1 dec_safe t Fixed S2 x s0 W0)|]. intro T. rewrite T in S3. intros x s0 W0. apply (proj1 dec_safe t CodecModel.Tail S3 x s0 W0).
Qed.
Lemma r_u32_runs s : wb s -> exists n s', r_u32 s = Ok (n, s') /\ mono s s' /\ 0 <= n.
Proof.
  intro W. unfold r_u32. destruct (call_runs (RFixed U32) s W Logic.I) as (v & s' & E & M). rewrite E. cbn [bind]. exists (num v), s'. split; [reflexivity|split; [exact M|]].
  now apply (num_nn U32 s v s').
Qed.
Lemma r_intvar_runs s : wb s -> Runs s (r_intvar s).
Proof. intro W. unfold r_intvar. apply runs_bind; [now apply call_runs|]. intros v s' _ M. apply runs_ok, M. Qed.
Lemma fail_mono s s' e : mono s s' -> mono s (fail s' e).
Proof. intros [A B C]. split; trivial. Qed.
Lemma rd_list_runs t : field_safe t = true -> forall l old s, length old = l -> wb s -> Runs s (rd_list t l old s).
Proof.
  intro F. induction l as [|l IH]; intros old s L W; cbn [rd_list]; [now apply runs_ok|]. destruct old as [|o old]; [discriminate|]. injection L as L.
  apply runs_bind; [now apply rsized_runs|]. intros y s1 _ M. apply runs_bind; [apply IH; [exact L|apply M]|]. intros ys s2 _ M2. apply runs_ok, M2.
Qed.
Lemma rd_flds_runs : forall fs k olds s, fields_safe fs = true -> wb s -> Runs s (rd_flds k fs olds s).
Proof.
  induction fs as [|tg t fs IH]; intros k olds s F W; cbn [rd_flds]; [now apply runs_ok|]. destruct olds as [o olds]. cbn [fields_safe] in F. apply andb_true_iff in F. destruct F as [F1 F].
  destruct (drop true tg t); cbn [orb] in F1.
  - apply runs_bind; [now apply IH|]. intros x s1 _ M. apply runs_ok, M.
  - destruct (0 <? k); [|now apply runs_ok]. apply runs_bind; [now apply rsized_runs|]. intros y s1 _ M. apply runs_bind; [apply IH; [exact F|apply M]|]. intros ys s2 _ M2. apply runs_ok, M2.
Qed.
Lemma fixed_runs t old s : (forall x s, wb s -> Runs s (dec Fixed t x s)) -> wb s ->
  Runs s (do! (ok, s) <- one_field (sz0 true t) s; if ok : bool then dec Fixed t old s else Ok (old, s)).
Proof.
  intros F W. apply (runs_bind s (one_field (sz0 true t) s) (fun ok s => if ok : bool then dec Fixed t old s else Ok (old, s))).
  - unfold one_field. destruct (r_u32_runs s W) as (n & s1 & E & M & _). rewrite E. cbn [bind]. destruct (1 <=? n).
    + destruct (r_intvar_runs s1 (oWb _ _ M)) as (z & s2 & E2 & M2). rewrite E2. cbn [bind]. pose proof (mono_trans _ _ _ M M2) as MM.
      destruct (z =? sz0 true t); eexists _, _; (split; [reflexivity|]); [exact MM|now apply fail_mono].
    + eexists _, _. split; [reflexivity|now apply fail_mono].
  - intros ok s1 _ M. destruct ok; [apply F, M|apply runs_ok, M].
Qed.
Lemma sb_read_runs : forall t old s, tuple_safe t = true -> wb s -> Runs s (sb_read t old s).
Proof.
  induction t as [k|k| |n t IH|t IH|t IH|fs]; intros old s F W; try discriminate F.
  - cbn [sb_read]. apply fixed_runs; [|exact W]. intros x s0 W0. apply (proj1 dec_safe (TNum k) Fixed eq_refl x s0 W0).
  - destruct t as [[]| | | | | |]; try discriminate F. cbn [sb_read]. apply fixed_runs; [|exact W]. intros x s0 W0. apply (proj1 dec_safe (TArr n (TNum U8)) Fixed eq_refl x s0 W0).
  - cbn [tuple_safe] in F. destruct (u8_dec t) as [->|U].
    + discriminate F.
    + assert (F' : field_safe t = true) by (destruct t as [[]| | | | | |]; try discriminate U; exact F). clear F. rename F' into F.
      rewrite (proj2 (sb_read_list t U 0)). destruct (r_u32_runs s W) as (l & s1 & E & M & N). rewrite E. cbn [bind].
      unfold make_slice. destruct (Z.ltb_spec l 0); [lia|]. cbn [bind]. 
      destruct (rd_list_runs t F (Z.to_nat l) (repeat (zero t) (Z.to_nat l)) (mkSt (s_rd s1) (s_alloc s1 ++ [l])) (repeat_length _ _) (oWb _ _ M)) as (x & s2 & E2 & M2).
      exists x, s2. split; [exact E2|]. destruct M as [A1 A2 A3], M2 as [B1 B2 B3]. split; [exact B1|intro Q; apply B2, A2, Q|unfold body in *; cbn [s_rd] in *; lia].
  - cbn [sb_read]. apply runs_bind; [now apply IH|]. intros x s1 _ M. apply runs_ok, M.
  - cbn [sb_read]. destruct (r_u32_runs s W) as (l & s1 & E & M & N). rewrite E. cbn [bind]. destruct (rd_flds_runs fs l old s1 F (oWb _ _ M)) as (x & s2 & E2 & M2).
    exists x, s2. split; [exact E2|exact (mono_trans _ _ _ M M2)].
Qed.
