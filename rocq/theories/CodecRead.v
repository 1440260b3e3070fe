(** Proofs about the reflective codec: reading back what was written. *)
From Coq Require Import ZArith List Bool Arith Lia.
Import ListNotations.
From Verif Require Import Base PrimModel PrimSpec PrimProofs PrimWriter PrimProps CodecModel CodecSpec CodecProofs.
Open Scope Z_scope.

Definition st0 (b : list Z) (al : list Z) : st := mkSt (mkRd b None) al.

(** ** Primitive reads *)
Lemma call_fixed k x rest al : kind_ok k x -> call (RFixed k) (st0 (layout k x ++ rest) al) = Ok (VNum x, st0 rest al).
Proof.
  intro H. unfold call, st0. cbn [s_rd s_alloc r_call r_err r_body]. rewrite app_length. unfold layout at 1. rewrite le_enc_length.
  destruct (Nat.ltb_spec (width k + length rest) (width k)); [lia|]. destruct (dec_fixed k x rest H) as [-> ->]. reflexivity.
Qed.
Lemma digs_val i : 0 <= i < 2 ^ 64 -> digits_value 0 (digs (nbytes i) i) = i /\ Forall digit_ok (digs (nbytes i) i) /\ digs (nbytes i) i <> [].
Proof.
  intro H. split; [rewrite digs_value, Z.mod_small; [lia|]; split; [lia|now apply nbytes_hi]|split; [apply digs_ok|]].
  pose proof (nbytes_range i). pose proof (digs_length (nbytes i) i). intro E. rewrite E in *. cbn in *. lia.
Qed.
Lemma call_var x rest al : 0 <= x < 2 ^ 64 -> call RVar (st0 (var_bytes x ++ rest) al) = Ok (VNum x, st0 rest al).
Proof.
  intro H. destruct (digs_val x H) as (V & D & N). unfold call, st0. cbn [s_rd s_alloc r_call r_err r_body].
  rewrite var_bytes_mark by exact H. pose proof (scan_mark _ rest 0 D N ltac:(lia)) as K.
  rewrite V in K. destruct (Z.ltb_spec x (2 ^ 64)); [|lia]. now rewrite K.
Qed.
Lemma take_ok b rest al : take (zlen b) (st0 (b ++ rest) al) = Ok (b, st0 rest al).
Proof.
  unfold take, call, st0. cbn [s_rd s_alloc r_call r_err r_body]. rewrite app_length.
  destruct (Z.ltb_spec (Z.of_nat (length b + length rest)) (zlen b)); [unfold zlen in *; lia|].
  destruct (Z.ltb_spec (zlen b) 0); [unfold zlen in *; lia|]. unfold zlen. rewrite Nat2Z.id, firstn_app_len, skipn_app_len by reflexivity. reflexivity.
Qed.
Lemma bulk_ok k xs old rest al : Forall (kind_ok k) xs -> length old = length xs ->
  bulk k old (st0 (flat_map (layout k) xs ++ rest) al) = Ok (xs, st0 rest al).
Proof.
  intros F L. unfold bulk. destruct old as [|o old].
  - destruct xs; [reflexivity|discriminate].
  - unfold call, st0. cbn [s_rd s_alloc r_call r_err r_body]. rewrite app_length, flat_len, L.
    destruct (Nat.ltb_spec (length xs * width k + length rest) (length xs * width k)); [lia|].
    destruct (dec_bulk k rest xs F) as [-> ->]. reflexivity.
Qed.
Lemma rprefix_ok p n b al : not_i64 p = true -> 0 <= n -> pfits p n -> rprefix p (st0 (pre p n ++ b) al) = Ok (n, st0 b al).
Proof.
  intros N P F. destruct p; try discriminate; cbn [rprefix pre pfits] in *.
  - rewrite call_var by lia. cbn [bind num]. f_equal. f_equal. unfold to_int, of_bits. cbn [signed width andb].
    destruct (Z.leb_spec (256 ^ Z.of_nat 8 / 2) n); [|reflexivity]. cbn in H. lia.
  - replace (le_enc 1 n) with (layout U8 n). 2:{ unfold layout. destruct (Z.ltb_spec n 0); [lia|reflexivity]. }
    rewrite call_fixed; [reflexivity|]. unfold kind_ok. cbn. lia.
  - replace (le_enc 2 n) with (layout U16 n). 2:{ unfold layout. destruct (Z.ltb_spec n 0); [lia|reflexivity]. }
    rewrite call_fixed; [reflexivity|]. unfold kind_ok. cbn. lia.
  - replace (le_enc 4 n) with (layout U32 n). 2:{ unfold layout. destruct (Z.ltb_spec n 0); [lia|reflexivity]. }
    rewrite call_fixed; [reflexivity|]. unfold kind_ok. cbn. lia.
Qed.
Lemma dec_take_ok p (b old rest : list Z) al : not_i64 p = true -> pfits p (zlen b) ->
  dec_take p old (st0 ((pre p (zlen b) ++ b) ++ rest) al) = Ok (b, st0 rest al).
Proof.
  intros N F. unfold dec_take. cbn [failed st0 s_rd r_err]. rewrite <- app_assoc. fold (st0 (pre p (zlen b) ++ b ++ rest) al).
  rewrite rprefix_ok by (try assumption; apply zlen_nn). cbn [bind]. apply take_ok.
Qed.

(** ** Zero values *)
Lemma zero_shaped : (forall t, shaped t (zero t)) /\ (forall fs, shaped_flds fs (zeros fs)).
Proof.
  apply ty_flds_ind; cbn; try easy.
  - intros n t IH. split; [apply repeat_length|]. apply Forall_forall. intros x Hx. apply repeat_spec in Hx. now subst.
Qed.
Lemma fixed_nn : (forall t s, fixed_size t = Some s -> 0 <= s) /\ (forall fs s, fixed_sizes fs = Some s -> 0 <= s).
Proof.
  assert (PL : forall p n, 0 <= pre_len p n) by (intros [] n; cbn [pre_len]; try lia; apply zlen_nn).
  apply ty_flds_ind; cbn [fixed_size fixed_sizes]; try discriminate.
  - intros k s E. injection E as <-. lia.
  - intros n t IH s E. destruct (fixed_size t) as [a|]; [|discriminate]. injection E as <-. specialize (IH a eq_refl). lia.
  - easy.
  - intros s E. injection E as <-. lia.
  - intros tg t IH fs IHf s E. destruct (fixed_sizes fs) as [b|]; [|now destruct tg, (fixed_size t), (count_const t)].
    specialize (IHf b eq_refl). destruct (fixed_size t) as [a|]; [specialize (IH a eq_refl)|].
    + destruct tg; try destruct (count_const t) as [c|]; try discriminate; cbn [oplus] in E; injection E as <-;
      try (pose proof (PL p a)); try (pose proof (PL p c)); lia.
    + destruct tg; try discriminate. cbn in E. injection E as <-. lia.
Qed.
Lemma pre_len_pos p n : 0 <= n < 2 ^ 64 -> 1 <= pre_len p n.
Proof. intro H. destruct p; cbn [pre_len]; try lia. now apply var_len. Qed.
(** a type whose values take no bytes has one value *)
Lemma zero_same :
  (forall t v w, fixed_size t = Some 0 -> fits t v -> shaped t w -> same t v w) /\
  (forall fs vs ws, fixed_sizes fs = Some 0 -> fits_flds fs vs -> shaped_flds fs ws -> same_flds fs vs ws).
Proof.
  apply ty_flds_ind; cbn [fixed_size fixed_sizes]; try discriminate.
  - intros k v w E. injection E as E. destruct k; discriminate.
  - intros n t IH v w E [L F] [L' F']. destruct (fixed_size t) as [a|] eqn:K; [|discriminate]. injection E as E.
    cbn [same]. destruct n as [|n].
    + destruct v, w; try discriminate. constructor.
    + assert (a = 0) by lia. subst a. rewrite <- L' in L. clear - IH L F F'. revert w L F'. cbn [val] in v |- *.
      induction v as [|x v IHv]; intros [|y w] L F'; try discriminate; constructor;
      apply Forall_cons_iff in F, F'; destruct F, F'; [now apply IH|]. apply IHv; auto.
  - intros fs IH v w E F S. exact (IH v w E F S).
  - intros [] [] _ _ _. exact I.
  - intros tg t IH fs IHf [v vs] [w ws] E [F1 F2] [S1 S2]. cbn [same_flds].
    destruct (fixed_sizes fs) as [b|] eqn:Kf; [|now destruct tg, (fixed_size t), (count_const t)].
    pose proof (proj2 fixed_nn fs b Kf) as Nb.
    assert (C : match tg with TgSkip => True | _ => same t v w end /\ b = 0).
    { destruct tg.
      - cbn in E. injection E as E. now split.
      - destruct (fixed_size t) as [a|] eqn:K; [|discriminate]. cbn in E. injection E as E. pose proof (proj1 fixed_nn t a K).
        assert (a = 0) by lia. subst a. split; [now apply IH|lia].
      - exfalso. destruct F1 as (F1 & P & _). destruct (fixed_size t) as [a|] eqn:K; [|discriminate]. cbn in E. injection E as E. pose proof (proj1 fixed_nn t a K).
        destruct (proj1 fixed_len t a v K F1) as [A _]. rewrite A in P. assert (1 <= pre_len p a); [|lia].
        destruct p; cbn [pre_len pfits] in *; try lia. apply (var_len a). lia.
      - exfalso. destruct F1 as (F1 & P). destruct (fixed_size t) as [a|] eqn:K; [|discriminate].
        destruct (count_const t) as [c|] eqn:C; [|discriminate]. cbn in E. injection E as E. pose proof (proj1 fixed_nn t a K).
        assert (count t v = c) by (destruct t; try discriminate; now injection C as <-).
        assert (0 <= c) by (destruct t; try discriminate; injection C as <-; lia).
        assert (1 <= pre_len p c); [|lia]. destruct p; cbn [pre_len pfits] in *; try lia. apply (var_len c). lia.
      - destruct (fixed_size t) as [a|] eqn:K; [|discriminate]. cbn in E. injection E as E. pose proof (proj1 fixed_nn t a K).
        assert (a = 0) by lia. subst a. split; [now apply IH|lia]. }
    destruct C as [C ->]. split; [exact C|]. now apply IHf.
Qed.
Lemma same_eq : (forall t v w, no_skip t = true -> same t v w -> v = w) /\ (forall fs vs ws, no_skips fs = true -> same_flds fs vs ws -> vs = ws).
Proof.
  assert (L : forall t (v w : list (val t)), (forall v w, no_skip t = true -> same t v w -> v = w) -> no_skip t = true -> Forall2 (same t) v w -> v = w).
  { intros t v w IH N F. induction F; [reflexivity|]. f_equal; auto. }
  apply ty_flds_ind.
  - easy.
  - easy.
  - easy.
  - intros n t IH v w N S. exact (L t v w IH N S).
  - intros t IH v w N S. exact (L t v w IH N S).
  - intros t IH [v|] [w|] N S; try easy. f_equal. now apply IH.
  - intros fs IH v w N S. exact (IH v w N S).
  - now intros [] [].
  - intros tg t IH fs IHf [v vs] [w ws] N [S1 S2]. cbn [no_skips] in N. bools. f_equal; [|auto].
    destruct tg; try discriminate; auto.
Qed.

(** ** Lists of elements *)
Definition Dec {A} (R : A -> A -> Prop) (f : A -> st -> out (A * st)) (v old : A) (b rest : list Z) : Prop :=
  forall al, exists v' al', f old (st0 (b ++ rest) al) = Ok (v', st0 rest al') /\ R v v'.
Lemma dec_list_ok {A} (R : A -> A -> Prop) (f : A -> st -> out (A * st)) (g : A -> list Z) (sh : A -> Prop) : forall v old rest,
  (forall x o rest, In x v -> sh o -> Dec R f x o (g x) rest) -> length old = length v -> Forall sh old ->
  Dec (Forall2 R) (dec_list f) v old (flat_map g v) rest.
Proof.
  induction v as [|x v IH]; intros [|o old] rest H L F al; try discriminate.
  - exists [], al. split; [reflexivity|constructor].
  - apply Forall_cons_iff in F. destruct F as [F1 F]. cbn [flat_map dec_list]. rewrite <- app_assoc.
    destruct (H x o (flat_map g v ++ rest) (or_introl eq_refl) F1 al) as (x' & al1 & E & Rx). rewrite E. cbn [bind].
    destruct (IH old rest (fun y o r Hy => H y o r (or_intror Hy)) ltac:(now injection L) F al1) as (v' & al2 & E2 & Rv). rewrite E2.
    exists (x' :: v'), al2. split; [reflexivity|now constructor].
Qed.
Lemma tail_loop_ok {A} (R : A -> A -> Prop) (f : A -> st -> out (A * st)) (g : A -> list Z) (sh : A -> Prop) z : sh z -> forall v fuel old,
  (forall x o rest, In x v -> sh o -> Dec R f x o (g x) rest) -> (forall x, In x v -> g x <> []) -> (length v < fuel)%nat -> Forall sh old ->
  forall al, exists v' al', tail_loop z f fuel old (st0 (flat_map g v) al) = Ok (v', st0 [] al') /\ Forall2 R v v'.
Proof.
  intros Z. induction v as [|x v IH]; intros fuel old H N L F al.
  - exists [], al. split; [destruct fuel; reflexivity|constructor].
  - destruct fuel as [|fuel]; [lia|]. cbn [tail_loop flat_map failed st0 s_rd r_body r_err negb].
    replace (0 <? zlen (g x ++ flat_map g v)) with true. 2:{ symmetry. apply Z.ltb_lt. rewrite zlen_app. pose proof (zlen_nn (flat_map g v)).
      pose proof (N x (or_introl eq_refl)). destruct (g x); [easy|]. unfold zlen at 1. cbn [length]. lia. }
    cbn [andb]. fold (st0 (g x ++ flat_map g v) al).
    destruct (H x (hd z old) (flat_map g v) (or_introl eq_refl)) with (al := al) as (x' & al1 & E & Rx).
    { destruct old; [exact Z|]. now apply Forall_cons_iff in F. }
    rewrite E. cbn [bind].
    destruct (IH fuel (tl old)) with (al := al1) as (v' & al2 & E2 & Rv).
    { intros y o r Hy. apply H. now right. } { intros y Hy. apply N. now right. } { cbn in L. lia. }
    { destruct old; [constructor|]. now apply Forall_cons_iff in F. }
    rewrite E2. exists (x' :: v'), al2. split; [reflexivity|now constructor].
Qed.
(** layouts that are not empty *)
Lemma nonempty_lay :
  (forall t v, nonempty t = true -> fits t v -> lay true t v <> []) /\
  (forall fs vs, nonempties fs = true -> fits_flds fs vs -> lays fs vs <> []).
Proof.
  assert (E4 : forall n, le_enc 4 n <> []) by discriminate.
  apply ty_flds_ind.
  - intros k v _ _ E. cbn [lay] in E. apply (f_equal (@length Z)) in E. unfold layout in E. rewrite le_enc_length in E. destruct k; discriminate.
  - intros k v _ F E. cbn [lay fits] in *. destruct (var_len v (var_range k v F)) as [_ A]. rewrite E in A. cbn in A. lia.
  - intros v _ _ E. cbn [lay] in E. now apply app_eq_nil in E.
  - intros n t IH v N [L F] E. cbn [nonempty lay] in *. bools. cbn [val] in v. destruct v as [|x v].
    + cbn in L. subst n. discriminate.
    + cbn [flat_map] in E. apply app_eq_nil in E. destruct E as [E _]. apply Forall_cons_iff in F. now apply (IH x).
  - intros t IH v _ _ E. cbn [lay] in E. now apply app_eq_nil in E.
  - discriminate.
  - intros fs IH v N F. now apply IH.
  - discriminate.
  - intros tg t IH fs IHf [v vs] N [F1 F2] E. cbn [nonempties lays] in *. apply app_eq_nil in E. destruct E as [E E'].
    apply orb_prop in N. destruct N as [N|N]; [|now apply (IHf vs)].
    assert (PE : forall p n, pfits p n -> 0 <= n -> pre p n <> []).
    { clear. intros p n F P. destruct p; cbn [pre]; try discriminate. cbn [pfits] in F. destruct (var_len n ltac:(lia)) as [_ A].
      intro E. rewrite E in A. cbn in A. lia. }
    destruct tg; try discriminate.
    + now apply (IH v).
    + destruct F1 as (_ & P & _). apply app_eq_nil in E. destruct E as [E _]. apply PE in E; [exact E|exact P|apply zlen_nn].
    + destruct F1 as (_ & P). apply app_eq_nil in E. destruct E as [E _]. apply PE in E; [exact E|exact P|].
      destruct t; cbn [count]; try lia; try apply zlen_nn. destruct v as [v|]; [|lia]. destruct t; lia.
Qed.

(** ** Decoding inverts the layout *)
Definition DA (t : ty) := forall addr v old rest, goodA addr t = true -> fits t v -> shaped t old -> Dec (same t) (dec Auto t) v old (lay true t v) rest.
Definition DR (t : ty) := forall addr v old rest, goodR addr t = true -> fits t v -> shaped t old -> Dec (same t) (dec Fixed t) v old (lay false t v) rest.
Definition DT (t : ty) := forall addr v old, goodT addr t = true -> fits t v -> shaped t old -> Dec (same t) (dec Tail t) v old (lay false t v) [].
Definition raw_dec (t : ty) : list (val t) -> st -> out (list (val t) * st) :=
  match t return (val t -> st -> out (val t * st)) -> list (val t) -> st -> out (list (val t) * st) with
  | TNum k => fun _ old s => bulk k old s
  | _ => fun f old s => dec_list f old s
  end (dec Auto t).
Lemma dec_arr m n t : dec m (TArr n t) = raw_dec t.
Proof. destruct t; reflexivity. Qed.
Lemma dec_sl_fixed t : dec Fixed (TSl t) = raw_dec t.
Proof. destruct t; reflexivity. Qed.
Lemma Forall2_eq_refl {A} (l : list A) : Forall2 eq l l. Proof. induction l; constructor; auto. Qed.
Lemma raw_dec_ok addr t v old rest : DA t -> goodA addr t = true -> Forall (fits t) v -> Forall (shaped t) old -> length old = length v ->
  Dec (Forall2 (same t)) (raw_dec t) v old (flat_map (lay true t) v) rest.
Proof.
  intros D G F S L. unfold raw_dec. destruct t as [k| | | | | |];
  try (apply (dec_list_ok (same _) _ (lay true _) (shaped _)); [|exact L|exact S]; intros x o r Hx Ho; apply (D addr); [exact G| |exact Ho]; rewrite Forall_forall in F; now apply F).
  intro al. exists v, al. split; [|apply Forall2_eq_refl]. apply bulk_ok; assumption.
Qed.
Lemma cnt_set_ok t (v old : list (val t)) : Forall (shaped t) old ->
  exists l, (forall s, exists al, cnt_set t old (zlen v) s = Ok (l, mkSt (s_rd s) al)) /\ length l = length v /\ Forall (shaped t) l.
Proof.
  intro S. unfold cnt_set. destruct (Z.eqb_spec (zlen old) (zlen v)) as [E|_].
  - exists old. split; [intro s; exists (s_alloc s); now destruct s|split; [unfold zlen in E; lia|exact S]].
  - unfold make_slice. destruct (Z.ltb_spec (zlen v) 0); [unfold zlen in *; lia|]. eexists. split; [intro s; eexists; reflexivity|].
    rewrite repeat_length. split; [unfold zlen; lia|]. apply Forall_forall. intros x Hx. apply repeat_spec in Hx. subst x. apply zero_shaped.
Qed.
Lemma take_prefix p t (f : val t -> st -> out (val t * st)) old b rest al :
  not_i64 p = true -> pfits p (zlen b) -> dec_auto_take t p = Some f -> forall v, lay false t v = b -> fits t v ->
  exists v' al', f old (st0 ((pre p (zlen b) ++ b) ++ rest) al) = Ok (v', st0 rest al') /\ same t v v'.
Proof.
  intros N P E v L F. destruct t as [| | | |t| |]; try discriminate.
  - injection E as <-. cbn [lay app] in L. subst v. exists b, al. split; [now apply dec_take_ok|reflexivity].
  - destruct t as [k| | | | | |]; try discriminate. destruct k; try discriminate. injection E as <-. cbn [lay app fits] in L, F.
    destruct F as [_ F]. change (flat_map (layout U8) v = b) in L. rewrite bytes_u8 in L by exact F. subst b.
    exists v, al. split; [now apply dec_take_ok|apply Forall2_eq_refl].
Qed.
Lemma take_count p t f old rest al v :
  not_i64 p = true -> pfits p (count t v) -> dec_auto_take t p = Some f -> fits t v ->
  exists v' al', f old (st0 ((pre p (count t v) ++ lay false t v) ++ rest) al) = Ok (v', st0 rest al') /\ same t v v'.
Proof.
  intros N P E F. assert (C : count t v = zlen (lay false t v)).
  { destruct t as [| | | |t| |]; try discriminate; [reflexivity|]. destruct t as [k| | | | | |]; try discriminate. destruct k; try discriminate.
    cbn [count lay app fits] in *. destruct F as [_ F]. change (zlen v = zlen (flat_map (layout U8) v)). now rewrite bytes_u8. }
  rewrite C in *. eapply take_prefix; eauto.
Qed.
Lemma with_size_yes t fixed tail p v old x b rest R : not_i64 p = true -> pfits p (zlen b) ->
  (forall al, exists al', set_size t old (zlen b) (st0 (b ++ rest) al) = Ok (x, SzYes, st0 (b ++ rest) al')) ->
  Dec R fixed v x b rest -> Dec R (@dec_with_size t fixed tail p) v old (pre p (zlen b) ++ b) rest.
Proof.
  intros N P S D al. unfold dec_with_size. cbn [failed st0 s_rd r_err]. rewrite <- app_assoc. fold (st0 (pre p (zlen b) ++ b ++ rest) al).
  rewrite rprefix_ok by (try assumption; apply zlen_nn). cbn [bind]. destruct (S al) as [al' ->]. cbn [bind]. apply D.
Qed.
Lemma with_size_no t fixed tail p v old b rest R : not_i64 p = true -> pfits p (zlen b) ->
  (forall sz s, set_size t old sz s = Ok (old, SzNo, s)) ->
  Dec R tail v old b [] -> Dec R (@dec_with_size t fixed tail p) v old (pre p (zlen b) ++ b) rest.
Proof.
  intros N P S D al. unfold dec_with_size. cbn [failed st0 s_rd r_err]. rewrite <- app_assoc. fold (st0 (pre p (zlen b) ++ b ++ rest) al).
  rewrite rprefix_ok by (try assumption; apply zlen_nn). cbn [bind]. rewrite S. cbn [bind]. rewrite take_ok. cbn [bind st0 s_rd s_alloc r_err].
  destruct (D al) as (v' & al' & E & Rv). rewrite app_nil_r in E. unfold st0 in E. rewrite E. cbn [bind s_alloc s_rd r_err r_body]. exists v', al'. split; [reflexivity|exact Rv].
Qed.
Lemma with_count_ok t fixed p v old x n b rest R : not_i64 p = true -> 0 <= n -> pfits p n ->
  (forall al, exists al', set_count t old n (st0 (b ++ rest) al) = Ok (x, true, st0 (b ++ rest) al')) ->
  Dec R fixed v x b rest -> Dec R (@dec_with_count t fixed p) v old (pre p n ++ b) rest.
Proof.
  intros N P F S D al. unfold dec_with_count. cbn [failed st0 s_rd r_err]. rewrite <- app_assoc. fold (st0 (pre p n ++ b ++ rest) al).
  rewrite rprefix_ok by assumption. cbn [bind]. destruct (S al) as [al' ->]. cbn [bind]. apply D.
Qed.

(** a slice after its count or size was set *)
Lemma sl_fixed addr t v old rest : DA t -> goodA addr t = true -> Forall (fits t) v -> Forall (shaped t) old -> length old = length v ->
  Dec (same (TSl t)) (dec Fixed (TSl t)) v old (lay false (TSl t) v) rest.
Proof. intros D G F S L. rewrite dec_sl_fixed. cbn [lay app]. now apply (raw_dec_ok addr). Qed.
Lemma sl_count p t v old rest : DA t -> goodA true t = true -> not_i64 p = true -> pfits p (zlen v) ->
  Forall (fits t) v -> Forall (shaped t) old ->
  Dec (same (TSl t)) (@dec_with_count (TSl t) (dec Fixed (TSl t)) p) v old (pre p (zlen v) ++ lay false (TSl t) v) rest.
Proof.
  intros D G N P F S. destruct (cnt_set_ok t v old S) as (l & E & L & Sl).
  eapply with_count_ok with (x := l); [exact N|apply zlen_nn|exact P| |].
  - intro al. cbn [set_count]. destruct (E (st0 (lay false (TSl t) v ++ rest) al)) as [al' ->]. exists al'. reflexivity.
  - now apply (sl_fixed true).
Qed.
Lemma sl_auto t v old rest : DA t -> goodA true t = true -> fits (TSl t) v -> Forall (shaped t) old ->
  Dec (same (TSl t)) (dec Auto (TSl t)) v old (lay true (TSl t) v) rest.
Proof.
  intros D G [L F] S.
  assert (U : (exists f, dec_auto_take (TSl t) P32 = Some f /\ dec Auto (TSl t) = f) \/ dec Auto (TSl t) = @dec_with_count (TSl t) (dec Fixed (TSl t)) P32).
  { destruct t as [k| | | | | |]; try (right; reflexivity). destruct k; try (right; reflexivity). left. eexists. split; reflexivity. }
  destruct U as [(f & U1 & U2)|U].
  - rewrite U2. intro al. exact (take_count P32 (TSl t) f old rest al v eq_refl L U1 (conj L F)).
  - rewrite U. apply (sl_count P32); assumption || reflexivity.
Qed.
Definition child (t : ty) : Prop := match t with TSl t | TPtr t => DA t /\ DR t | _ => True end.
Lemma goodA_R addr t : goodA addr t = true -> match t with TStr | TSl _ => False | _ => True end -> goodR addr t = true.
Proof. destruct t as [| | |n t| | |]; try easy. destruct t; easy. Qed.
Lemma goodA_T addr t : goodA addr t = true -> match t with TSl _ | TStruct _ => False | _ => True end -> goodT addr t = true.
Proof. destruct t as [| | |n t|t| |]; try easy. destruct t; easy. Qed.
Lemma Sz_sl t : truthful t = true -> sz0 true t <> 0 -> sz0 true (TSl t) = -1.
Proof.
  unfold truthful, sz0. intros T N. bools. cbn [Sz]. destruct (Sz true t) as [s|]; [|reflexivity]. cbn [andb].
  destruct (Z.eqb_spec s 0); [easy|reflexivity].
Qed.
(** the static size of a type without pointer or slice at its head *)
Lemma set_size_plain t old : match t with TPtr _ | TSl _ => False | _ => True end -> forall sz s,
  set_size t old sz s = if 0 <=? sz0 true t then Ok (old, if sz =? sz0 true t then SzYes else SzErr, s) else Ok (old, SzNo, s).
Proof. intros H sz s. destruct t; easy. Qed.
Lemma size_plain addr t p v old rest : match t with TPtr _ | TSl _ => False | _ => True end -> truthful t = true \/ sz0 true t = -1 ->
  DR t -> DT t -> (fixed_size t = None \/ goodR addr t = true) -> (sz0 true t < 0 -> goodT addr t = true) ->
  not_i64 p = true -> fits t v -> pfits p (zlen (lay false t v)) -> shaped t old ->
  Dec (same t) (@dec_with_size t (dec Fixed t) (dec Tail t) p) v old (pre p (zlen (lay false t v)) ++ lay false t v) rest.
Proof.
  intros H T R A GR GT N F P S.
  assert (C : (exists s, fixed_size t = Some s /\ sz0 true t = s) \/ sz0 true t = -1).
  { destruct T as [T|T]; [|now right]. rewrite (truthful_sz t true T). destruct (fixed_size t) as [s|]; [left; now exists s|now right]. }
  destruct C as [(s & K & E)|E].
  - destruct GR as [GR|GR]; [congruence|]. eapply with_size_yes with (x := old); [exact N|exact P| |].
    + intro al. exists al. rewrite set_size_plain by exact H. destruct (proj1 fixed_len t s v K F) as [L _]. rewrite E, L.
      destruct (Z.leb_spec 0 s); [now rewrite Z.eqb_refl|]. pose proof (proj1 fixed_nn t s K). lia.
    + now apply (R addr).
  - apply with_size_no; [exact N|exact P| |].
    + intros sz x. rewrite set_size_plain by exact H. rewrite E. reflexivity.
    + apply (A addr); [apply GT; lia|exact F|exact S].
Qed.
Lemma flat_map_nil {A} (g : A -> list Z) l : (length l <= length (flat_map g l))%nat \/ exists x, In x l /\ g x = [].
Proof.
  induction l as [|x l [IH|(y & Hy & E)]]; [left; cbn; lia| |right; exists y; split; [now right|exact E]].
  destruct (g x) as [|z b] eqn:E; [right; exists x; split; [now left|exact E]|]. left. cbn [flat_map]. rewrite app_length, E. cbn. lia.
Qed.
Lemma sl_tail addr t v old : DA t -> goodT addr (TSl t) = true -> fits (TSl t) v -> Forall (shaped t) old ->
  Dec (same (TSl t)) (dec Tail (TSl t)) v old (lay false (TSl t) v) [].
Proof.
  intros D G [L F] S al.
  assert (U : t = TNum U8 \/ (goodA true t = true /\ nonempty t = true /\ dec Tail (TSl t) =
    fun old s => tail_loop (zero t) (dec Auto t) (length (r_body (s_rd s)) + length old + 1) old s)).
  { cbn [goodT] in G. destruct t as [k| | | | | |]; try (right; bools; split; [assumption|split; [assumption|reflexivity]]).
    destruct k; try discriminate. now left. }
  destruct U as [->|(GA & NE & U)].
  - exists v, al. split; [|apply Forall2_eq_refl]. cbn [dec lay app]. cbn [failed st0 s_rd r_err]. change (flat_map (lay true (TNum U8)) v) with (flat_map (layout U8) v).
    rewrite bytes_u8 by exact F. rewrite app_nil_r. reflexivity.
  - rewrite U, app_nil_r. cbn [lay app st0 s_rd r_body]. fold (st0 (flat_map (lay true t) v) al).
    assert (NV : forall x, In x v -> lay true t x <> []).
    { intros x Hx. apply nonempty_lay; [exact NE|]. rewrite Forall_forall in F. now apply F. }
    apply (tail_loop_ok (same t) (dec Auto t) (lay true t) (shaped t)); [apply zero_shaped| |exact NV| |exact S].
    + intros x o r Hx Ho. apply (D true); [exact GA| |exact Ho]. rewrite Forall_forall in F. now apply F.
    + destruct (flat_map_nil (lay true t) v) as [Q|(x & Hx & Q)]; [|now apply NV in Q].
      eapply Nat.le_lt_trans; [exact Q|]. lia.
Qed.
(** one field *)
Definition fdec (m : mode) (tg : tag) (t : ty) (old : val t) (s : st) : out (val t * st) :=
  if drop true tg t then Ok (old, s)
  else match tg with
  | TgSize p =>
      match dec_auto_take t p with
      | Some f => f old s
      | None => dec_with_size (dec Fixed t) (dec Tail t) p old s
      end
  | TgCnt p =>
      match dec_auto_take t p with
      | Some f => f old s
      | None => dec_with_count (dec Fixed t) p old s
      end
  | TgNo => dec m t old s
  | _ => dec Auto t old s
  end.
Definition flay (tg : tag) (t : ty) (v : val t) : list Z :=
  match tg with
  | TgSkip => []
  | TgAuto => lay true t v
  | TgSize p => pre p (zlen (lay false t v)) ++ lay false t v
  | TgCnt p => pre p (count t v) ++ lay false t v
  | TgNo => lay false t v
  end.
Definition ffits (tg : tag) (t : ty) (v : val t) : Prop :=
  match tg with
  | TgSkip => True
  | TgSize p => fits t v /\ pfits p (zlen (lay false t v)) /\ ber_sizes_right t v
  | TgCnt p => fits t v /\ pfits p (count t v)
  | _ => fits t v
  end.
Definition fgood (addr tail : bool) (tg : tag) (t : ty) : bool :=
  match tg with
  | TgSkip => true
  | TgAuto =>
      Bool.eqb (drop false tg t) (drop true tg t) &&
      (if drop false tg t then match fixed_size t with Some 0 => true | _ => false end else true) && goodA addr t
  | TgSize p => not_i64 p && size_ok addr t
  | TgCnt p => not_i64 p && cnt_ok addr t
  | TgNo => negb (drop false tg t) && negb (drop true tg t) && if tail then goodT addr t else goodR addr t
  end.
Lemma quot_len {A} (l : list A) w : 0 < w -> Z.quot (zlen l * w) w = zlen l.
Proof. intro H. apply Z.quot_mul. lia. Qed.
Lemma size_field addr p t v old rest : (DA t /\ DR t /\ DT t) -> child t -> not_i64 p = true -> size_ok addr t = true ->
  fits t v -> pfits p (zlen (lay false t v)) -> shaped t old -> dec_auto_take t p = None ->
  Dec (same t) (dec_with_size (dec Fixed t) (dec Tail t) p) v old (pre p (zlen (lay false t v)) ++ lay false t v) rest.
Proof.
  intros (IA & IR & IT) IC N G F P S AT.
  assert (EV : forall k, unsigned k = true -> sz0 true (TVar k) = -1) by reflexivity.
  destruct t as [k|k| |n t|t|t|gs]; cbn [size_ok] in G; try discriminate AT.
  - apply (size_plain addr); try assumption; try exact I; [left; destruct k; reflexivity|now right|reflexivity].
  - apply (size_plain addr); try assumption; try exact I; [now right|now left|intro; exact G].
  - destruct (is_var t) eqn:V.
    + destruct t; try discriminate V. apply (size_plain addr); try assumption; try exact I; [now right|now right|intro; exact G].
    + assert (G' : goodA addr (TArr n t) = true /\ truthful (TArr n t) = true) by (destruct t; try discriminate V; bools; split; assumption).
      destruct G' as [G1 G2]. apply (size_plain addr); try assumption; try exact I; [now left|right; now apply goodA_R|intro; now apply goodA_T].
  - destruct F as [L F]. destruct IC as [CA CR].
    assert (C : (exists s, fixed_size t = Some s /\ 0 < s /\ sz0 true t = s /\ sz0 true (TSl t) = -1 /\ goodA true t = true) \/
                (sz0 true t = -1 /\ sz0 true (TSl t) = -1 /\ goodT addr (TSl t) = true)).
    { destruct (is_num t) eqn:V.
      - destruct t as [k| | | | | |]; try discriminate V. left. exists (Z.of_nat (width k)). pose proof (width_pos k).
        split; [reflexivity|split; [lia|split; [reflexivity|split; [destruct k; reflexivity|reflexivity]]]].
      - assert (G' : goodA true t && truthful t && nonempty t && negb (sz0 true t =? 0) = true) by (destruct t; try discriminate V; exact G).
        bools. apply Z.eqb_neq in H0. pose proof (Sz_sl t H2 H0) as Q. pose proof (truthful_sz t true H2) as T. destruct (fixed_size t) as [s|] eqn:K.
        + left. exists s. pose proof (proj1 fixed_nn t s K). split; [reflexivity|split; [lia|split; [exact T|split; assumption]]].
        + right. split; [exact T|split; [exact Q|]]. cbn [goodT]. destruct t; try discriminate V; now rewrite H, H1. }
    destruct C as [(s & K & P1 & E1 & E2 & GA)|(E1 & E2 & GT)].
    + destruct (cnt_set_ok t v old S) as (l & E & Ll & Sl).
      eapply with_size_yes with (x := l); [exact N|exact P| |now apply (sl_fixed true)].
      intro al. cbn [set_size]. rewrite E2, E1. cbn [Z.leb Z.compare]. destruct (Z.ltb_spec 0 s); [|lia].
      assert (LEN : zlen (lay false (TSl t) v) = zlen v * s).
      { cbn [lay app]. apply zlen_flat. intros x Hx. rewrite Forall_forall in F. destruct (proj1 fixed_len t s x K (F x Hx)) as [A ->]. exact A. }
      rewrite LEN, quot_len by lia. destruct (E (st0 (lay false (TSl t) v ++ rest) al)) as [al' E']. exists al'.
      change (zlen v) with (@zlen (val t) v). rewrite E'. reflexivity.
    + apply with_size_no; [exact N|exact P| |].
      * intros sz s. cbn [set_size]. rewrite E2, E1. reflexivity.
      * apply (IT addr); [exact GT|split; assumption|exact S].
  - destruct IC as [CA CR]. bools. destruct (fixed_size t) as [s|] eqn:K; [|discriminate]. apply Z.ltb_lt in H0.
    assert (PL : match t with TPtr _ | TSl _ => False | _ => True end) by (destruct t; try exact I; discriminate).
    assert (NV : is_var t = false) by (destruct t; try reflexivity; discriminate).
    destruct v as [v|].
    + set (x := match old with Some o => o | None => zero t end).
      assert (Sx : shaped t x) by (unfold x; destruct old; [exact S|apply zero_shaped]).
      assert (LEN : zlen (lay false (TPtr t) (Some v)) = s) by (cbn [lay]; now apply (proj1 fixed_len)).
      eapply with_size_yes with (x := Some x); [exact N|exact P| |].
      * intro al. exists al. rewrite LEN. assert (U : set_size (TPtr t) old s (st0 (lay false (TPtr t) (Some v) ++ rest) al) =
          do! (x, y, s) <- set_size t x s (st0 (lay false (TPtr t) (Some v) ++ rest) al); Ok (Some x, y, s)).
        { cbn [set_size]. destruct (Z.eqb_spec s 0); [lia|]. destruct t; try discriminate NV; reflexivity. }
        rewrite U, set_size_plain by exact PL. rewrite (truthful_sz t true H1), K. destruct (Z.leb_spec 0 s); [|lia]. rewrite Z.eqb_refl. reflexivity.
      * intro al. cbn [lay dec]. destruct (CR true v x rest) with (al := al) as (v' & al' & E & R); [|exact F|exact Sx|].
        { apply goodA_R; [exact H|]. destruct t; try exact I; discriminate. }
        rewrite E. exists (Some v'), al'. split; [reflexivity|exact R].
    + eapply with_size_yes with (x := None); [exact N|exact P| |].
      * intro al. exists al. cbn [lay set_size]. change (zlen []) with 0. destruct t; try discriminate NV; reflexivity.
      * intro al. exists None, al. split; [reflexivity|exact I].
  - bools. apply (size_plain addr); try assumption; try exact I; [now left| |].
    + destruct (Z.ltb_spec (sz0 true (TStruct gs)) 0) as [L|L].
      * left. rewrite (truthful_sz _ true H0) in L. destruct (fixed_size (TStruct gs)) eqn:K; [|reflexivity]. pose proof (proj1 fixed_nn _ _ K). lia.
      * right. exact H.
    + intro L. destruct (Z.ltb_spec (sz0 true (TStruct gs)) 0); [exact H|lia].
Qed.
Lemma count_field addr p t v old rest : (DA t /\ DR t /\ DT t) -> child t -> not_i64 p = true -> cnt_ok addr t = true ->
  fits t v -> pfits p (count t v) -> shaped t old -> dec_auto_take t p = None ->
  Dec (same t) (dec_with_count (dec Fixed t) p) v old (pre p (count t v) ++ lay false t v) rest.
Proof.
  intros (IA & IR & IT) IC N G F P S AT. destruct (count_ok addr t v G F) as [_ NN].
  assert (PLAIN : match t with TStr | TSl _ | TPtr _ => False | _ => True end -> count t v = Cnt t -> goodR addr t = true ->
    Dec (same t) (dec_with_count (dec Fixed t) p) v old (pre p (count t v) ++ lay false t v) rest).
  { intros H C GR. eapply with_count_ok with (x := old); [exact N|exact NN|exact P| |now apply (IR addr)].
    intro al. exists al. rewrite C. destruct t; try easy; cbn [set_count]; now rewrite Z.eqb_refl. }
  destruct t as [k|k| |n t|t|t|gs]; cbn [cnt_ok] in G; try discriminate AT.
  - now apply PLAIN.
  - now apply PLAIN.
  - apply PLAIN; [exact I|reflexivity|]. destruct t; exact G.
  - destruct F as [L F]. destruct IC as [CA CR]. cbn [goodA] in G. apply elem_num in G. now apply (sl_count p).
  - destruct IC as [CA CR]. bools. destruct v as [v|].
    + set (x := match old with Some o => o | None => zero t end).
      assert (Sx : shaped t x) by (unfold x; destruct old; [exact S|apply zero_shaped]).
      eapply with_count_ok with (x := Some x); [exact N|exact NN|exact P| |].
      * intro al. exists al. destruct t as [k| | |n t| | |]; try discriminate H0; cbn [count set_count Cnt bind Z.eqb]; try reflexivity.
        destruct n; [discriminate|]. destruct (Z.eqb_spec (Z.of_nat (Datatypes.S n)) 0); [lia|]. now rewrite Z.eqb_refl.
      * intro al. cbn [lay dec]. destruct (CR true v x rest) with (al := al) as (v' & al' & E & R); [|exact F|exact Sx|].
        { apply goodA_R; [exact H|]. destruct t; try exact I; discriminate. }
        rewrite E. exists (Some v'), al'. split; [reflexivity|exact R].
    + eapply with_count_ok with (x := None); [exact N|exact NN|exact P| |].
      * intro al. exists al. destruct t; try discriminate; reflexivity.
      * intro al. exists None, al. split; [reflexivity|exact I].
  - now apply PLAIN.
Qed.
Lemma field_ok addr tail tg t v old rest : (DA t /\ DR t /\ DT t) -> child t -> fgood addr tail tg t = true -> ffits tg t v -> shaped t old ->
  (tail = true -> tg = TgNo -> rest = []) ->
  Dec (fun v w => match tg with TgSkip => True | _ => same t v w end) (fdec (if tail then Tail else Fixed) tg t) v old (flay tg t v) rest.
Proof.
  intros (IA & IR & IT) IC G F S TR al. unfold fdec, fgood, ffits, flay in *. destruct tg as [| |p|p|].
  - exists old, al. split; [reflexivity|exact I].
  - bools. apply eqb_prop in H. rewrite H in H1. destruct (drop true TgAuto t).
    + destruct (fixed_size t) as [z|] eqn:K; [|discriminate]. destruct z; try discriminate.
      destruct (proj1 fixed_len t 0 v K F) as [A E]. rewrite E. assert (lay false t v = []) as -> by (unfold zlen in A; destruct (lay false t v); [reflexivity|cbn in A; lia]).
      exists old, al. split; [reflexivity|]. now apply zero_same.
    + now apply (IA addr).
  - change (drop true (TgSize p) t) with false. cbv iota. bools. destruct F as (F & P & _). destruct (dec_auto_take t p) as [f|] eqn:E.
    + eapply take_prefix; eauto.
    + now apply (size_field addr).
  - change (drop true (TgCnt p) t) with false. cbv iota. bools. destruct F as (F & P). destruct (dec_auto_take t p) as [f|] eqn:E.
    + now apply take_count.
    + now apply (count_field addr).
  - bools. rewrite H1. destruct tail.
    + rewrite (TR eq_refl eq_refl). now apply (IT addr).
    + now apply (IR addr).
Qed.
Lemma dec_ok :
  (forall t, (DA t /\ DR t /\ DT t) /\ child t) /\
  (forall fs, (forall addr vs olds rest, goodF addr false fs = true -> fits_flds fs vs -> shaped_flds fs olds -> Dec (same_flds fs) (dec_flds Fixed fs) vs olds (lays fs vs) rest) /\
    (forall addr vs olds, goodF addr true fs = true -> fits_flds fs vs -> shaped_flds fs olds -> Dec (same_flds fs) (dec_flds Tail fs) vs olds (lays fs vs) [])).
Proof.
  apply ty_flds_ind.
  - intros k. assert (X : forall m b v old rest, fits (TNum k) v -> Dec (same (TNum k)) (dec m (TNum k)) v old (lay b (TNum k) v) rest).
    { intros m b v old rest F al. exists v, al. split; [|reflexivity]. cbn [dec lay]. now rewrite call_fixed. }
    split; [|exact I]. split; [intros addr v old rest _ F _; now apply X|split; [intros addr v old rest _ F _; now apply X|intros addr v old _ F _; now apply X]].
  - intros k. assert (X : forall m b v old rest, fits (TVar k) v -> Dec (same (TVar k)) (dec m (TVar k)) v old (lay b (TVar k) v) rest).
    { intros m b v old rest F al. exists v, al. split; [|reflexivity]. cbn [dec lay fits] in *. rewrite call_var by (eapply var_range; exact F).
      cbn [bind num]. now rewrite Z.mod_small. }
    split; [|exact I]. split; [intros addr v old rest _ F _; now apply X|split; [intros addr v old rest _ F _; now apply X|intros addr v old _ F _; now apply X]].
  - split; [|exact I]. split; [|split].
    + intros addr v old rest _ [F L] S al. exists v, al. split; [|reflexivity]. exact (dec_take_ok P32 v old rest al eq_refl L).
    + discriminate.
    + intros addr v old _ [F L] S al. exists v, al. split; [|reflexivity]. cbn [lay app dec]. rewrite app_nil_r. reflexivity.
  - intros n t [(IA & _ & _) _].
    assert (X : forall addr m b v old rest, goodA addr t = true -> fits (TArr n t) v -> shaped (TArr n t) old -> Dec (same (TArr n t)) (dec m (TArr n t)) v old (lay b (TArr n t) v) rest).
    { intros addr m b v old rest G [L F] [L' S]. rewrite dec_arr. cbn [lay]. apply (raw_dec_ok addr); try assumption. exact (eq_trans L' (eq_sym L)). }
    split; [|exact I]. split; [|split].
    + intros addr v old rest G F S. apply (X addr); try assumption. apply elem_num. now apply arr_nv in G.
    + intros addr v old rest G F S. apply (X addr); try assumption. apply elem_num. destruct t; exact G.
    + intros addr v old G F S. apply (X addr); try assumption. apply elem_num. destruct t; exact G.
  - intros t [(IA & IR & _) _]. split; [|split; assumption]. split; [|split].
    + intros addr v old rest G F S. cbn [goodA] in G. apply sl_auto; try assumption. now apply elem_num in G.
    + discriminate.
    + intros addr v old G F S. now apply (sl_tail addr).
  - intros t [(IA & IR & _) _]. split; [|split; assumption]. split; [|split]; discriminate.
  - intros fs [IF IT]. split; [|exact I]. split; [|split].
    + intros addr v old rest G F S. now apply (IF addr).
    + intros addr v old rest G F S. now apply (IF addr).
    + intros addr v old G F S. now apply (IT addr).
  - split; intros; intro al; exists tt, al; (split; [reflexivity|exact I]).
  - intros tg t [(IA & IR & IT) IC] fs [IF ITf].
    assert (X : forall addr tail v old rest, (tail = true -> rest = []) -> goodF addr tail (FCons tg t fs) = true -> fits_flds (FCons tg t fs) v ->
      shaped_flds (FCons tg t fs) old -> (forall vs olds, goodF addr tail fs = true -> fits_flds fs vs -> shaped_flds fs olds -> Dec (same_flds fs) (dec_flds (if tail then Tail else Fixed) fs) vs olds (lays fs vs) rest) ->
      Dec (same_flds (FCons tg t fs)) (dec_flds (if tail then Tail else Fixed) (FCons tg t fs)) v old (lays (FCons tg t fs) v) rest).
    { intros addr tail [v vs] [old olds] rest TR G [F1 F2] [S1 S2] IH al.
      assert (G' : fgood addr tail tg t = true /\ (tg = TgNo -> fs = FNil) /\ goodF addr tail fs = true).
      { rewrite goodF_cons in G. unfold fgood. destruct tg; bools; (split; [|split; [|assumption]]); try assumption; try discriminate;
        try (repeat (apply andb_true_intro; split); try assumption; now apply negb_true_iff). intros _. now destruct fs. }
      destruct G' as (G1 & G3 & G2).
      destruct (field_ok addr tail tg t v old (lays fs vs ++ rest) (conj IA (conj IR IT)) IC G1 F1 S1) with (al := al) as (x & al1 & E1 & R1).
      { intros T N. rewrite (TR T). specialize (G3 N). clear - G3. subst fs. now destruct vs. }
      destruct (IH vs olds G2 F2 S2 al1) as (xs & al2 & E2 & R2).
      exists (x, xs), al2. split; [|split; assumption].
      change (lays (FCons tg t fs) (v, vs)) with (flay tg t v ++ lays fs vs). rewrite <- app_assoc.
      change (bind (fdec (if tail then Tail else Fixed) tg t old (st0 (flay tg t v ++ lays fs vs ++ rest) al))
        (fun '(x, s) => do! (xs, s) <- dec_flds (if tail then Tail else Fixed) fs olds s; Ok ((x, xs), s)) = Ok ((x, xs), st0 rest al2)).
      rewrite E1. cbn [bind]. rewrite E2. reflexivity. }
    split.
    + intros addr vs olds rest G F S. apply (X addr false); try assumption; [discriminate|]. intros. now apply (IF addr).
    + intros addr vs olds G F S. apply (X addr true); try assumption; [reflexivity|]. intros. now apply (ITf addr).
Qed.
