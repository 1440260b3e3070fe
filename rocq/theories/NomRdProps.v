(** The properties of reading values of named types. *)
From Coq Require Import ZArith List Bool Arith Lia.
Import ListNotations.
From Verif Require Import Base PrimModel PrimSpec PrimProofs.
From Verif Require CodecModel CodecSpec CodecProofs CodecRead.
From Verif Require Import RegModel FillModel NomModel NomSpec NomProofs NomRec NomLaySpec NomLay NomLayProps NomRdModel NomRdSpec NomRdProofs NomRdClass.
Open Scope Z_scope.

(** ** Read *)
Definition reads_to (R : nat -> rshape) (Z0 : nat -> dv) (g : nat -> info) (p : nat) (old x : dv) (b : list Z) : Prop :=
  exists N, forall fuel rest al, (N <= fuel)%nat -> exists al', Read R Z0 g fuel (VDyn p (VRef old)) (at_bytes (b ++ rest) al) = Ok (VDyn p (VRef x), at_bytes rest al').
Definition codec_target (R : nat -> rshape) (t : nat) : Prop :=
  match R t with RUser _ => False | RSl e => match R e with RIface => False | RUser u => ru_kind u <> KIface | _ => True end | _ => True end.
Lemma call_bulk k xs rest al : Forall (kind_ok k) xs -> call (RBulk k (repeat 0 (length xs))) (at_bytes (flat_map (layout k) xs ++ rest) al) = Ok (VNums xs, at_bytes rest al).
Proof.
  intro F. pose proof (rd_bulk k xs (repeat 0 (length xs)) rest al F (repeat_length 0 _)) as B. destruct xs as [|x xs]; [reflexivity|].
  assert (Q : forall dst s, dst <> [] -> CodecModel.bulk k dst s = do! (v, s) <- call (RBulk k dst) s; Ok (CodecModel.nums v, s)) by (intros [|] s; [congruence|reflexivity]).
  rewrite Q in B by discriminate. clear Q. revert B. generalize (repeat 0 (length (x :: xs))). generalize (flat_map (layout k) (x :: xs) ++ rest). generalize (x :: xs). intros l b d B.
  assert (Q : forall v s, call (RBulk k d) (at_bytes b al) = Ok (v, s) -> v = VNums (CodecModel.nums v)).
  { intros v s X. unfold CodecModel.call in X. destruct (r_call _ _) as [[w r]|] eqn:E; [|discriminate]. injection X as <- _. cbn [at_bytes CodecModel.s_rd] in E. unfold r_call in E. cbn [r_err r_body] in E. destruct (length b <? length d * width k)%nat; injection E as <- _; reflexivity. }
  destruct (call (RBulk k d) (at_bytes b al)) as [[v s]| |]; try discriminate. cbn [CodecModel.bind] in B. rewrite (Q v s eq_refl). now injection B as -> ->.
Qed.
Lemma Read_ready T R Z0 g p t v b old : R p = RPtr t -> codec_target R t -> means T true t v b -> ready T R g Z0 Auto true true t v old -> rcodecs R g t -> rvcodecs R g v ->
  exists x, alike T t x v /\ reads_to R Z0 g p old x b.
Proof.
  intros EP CT M RD C V. destruct (proj1 (rd_means T R Z0 g) true t v b M Auto true old RD C V) as (N & x & AL & H).
  assert (GEN : (forall fuel s, failed s = false -> Read R Z0 g (Datatypes.S fuel) (VDyn p (VRef old)) s = do! (x, s) <- rd R Z0 g fuel Auto true t old s; Ok (VDyn p (VRef x), s)) -> exists x, alike T t x v /\ reads_to R Z0 g p old x b).
  { intro Q. exists x. split; [exact AL|]. exists (Datatypes.S N). intros [|fuel] rest al LF; [lia|]. rewrite Q by reflexivity. destruct (H fuel rest ltac:(lia) ltac:(discriminate) al) as [al' X]. rewrite X. exists al'. reflexivity. }
  unfold codec_target in CT. destruct (R t) as [k| |n e|e|e|fs| |u|] eqn:E; try contradiction; try (apply GEN; intros fuel s F; cbn [Read]; rewrite F, EP, E; reflexivity).
  - pose proof (ready_shape T R Z0 g _ _ _ _ _ _ RD) as SS. rewrite E in SS. cbn in SS. inversion M; subst; try congruence. rewrite SS in *. match goal with Q : SNum _ = SNum _ |- _ => injection Q as -> end.
    exists (VNum x0). split; [constructor|]. exists 1%nat. intros [|fuel] rest al LF; [lia|]. exists al. cbn [Read]. rewrite EP, E. cbn [at_bytes CodecModel.failed CodecModel.s_rd r_err]. fold (at_bytes (layout k0 x0 ++ rest) al). rewrite rd_fixed by assumption. reflexivity.
  - pose proof (ready_shape T R Z0 g _ _ _ _ _ _ RD) as SS. rewrite E in SS. cbn in SS. inversion M; subst; try congruence.
    exists (VStr l). split; [constructor|]. exists 1%nat. intros [|fuel] rest al LF; [lia|]. exists al. cbn [Read]. rewrite not_failed, EP, E. cbn [count4].
    rewrite <- app_assoc. pose proof (rd_prefix P32 (zlen l) (l ++ rest) al ltac:(discriminate) (CodecProofs.zlen_nn l) ltac:(assumption)) as PX. unfold CodecModel.rprefix in PX. cbn [CodecSpec.pre] in PX.
    destruct (call (RFixed U32) (at_bytes (le_enc 4 (zlen l) ++ l ++ rest) al)) as [[c s]| |]; try discriminate. cbn [CodecModel.bind] in PX |- *. injection PX as PX1 PX2. rewrite PX1, PX2, not_failed, rd_take. reflexivity.
  - destruct (R e) as [k| | | | | | |u|] eqn:EE; try contradiction; try (apply GEN; intros fuel s F; cbn [Read]; rewrite F, EP, E, EE; reflexivity).
    + pose proof (ready_shape T R Z0 g _ _ _ _ _ _ RD) as SS. rewrite E in SS. cbn in SS. inversion M as [| | |? ? e' l b' E2 L2 I2| | | | | | |]; subst; try congruence. rewrite SS in E2. injection E2 as <-.
      assert (NU : l = [] \/ T e = SNum k).
      { destruct l as [|y l]; [now left|right]. cbn [ready] in RD. rewrite E in RD. destruct RD as (_ & RD). destruct old as [| |os| | |]; try contradiction. destruct RD as (_ & _ & RD). destruct (resliced Z0 e os (length (y :: l))); [contradiction|]. cbn [all2] in RD. destruct RD as [RD _]. apply ready_shape in RD. now rewrite EE in RD. }
      assert (BB : Forall (kind_ok k) (map vnum l) /\ b' = flat_map (layout k) (map vnum l) /\ l = map VNum (map vnum l)).
      { destruct NU as [-> |NU]; [inversion I2; subst; now repeat constructor|]. destruct (NomLay.nums T e k l b' NU I2) as [F ->]. split; [exact F|]. split; [reflexivity|]. now apply (num_items T e k l _ NU I2). }
      destruct BB as (F & -> & LV). exists (VSeq l). split; [constructor|]. exists 1%nat. intros [|fuel] rest al LF; [lia|]. cbn [Read]. rewrite not_failed, EP, E, EE. cbn [count4].
      rewrite <- app_assoc. pose proof (rd_prefix P32 (zlen l) (flat_map (layout k) (map vnum l) ++ rest) al ltac:(discriminate) (CodecProofs.zlen_nn l) L2) as PX. unfold CodecModel.rprefix in PX. cbn [CodecSpec.pre] in PX.
      destruct (call (RFixed U32) (at_bytes (le_enc 4 (zlen l) ++ flat_map (layout k) (map vnum l) ++ rest) al)) as [[c s]| |]; try discriminate. cbn [CodecModel.bind] in PX |- *. injection PX as PX1 PX2. rewrite PX1, PX2, not_failed.
      assert (BK : forall al, call (RBulk k (repeat 0 (Z.to_nat (zlen l)))) (at_bytes (flat_map (layout k) (map vnum l) ++ rest) al) = Ok (VNums (map vnum l), at_bytes rest al)).
      { intro al0. unfold zlen. rewrite Nat2Z.id, <- (map_length vnum l). now apply call_bulk. }
      destruct k; try (match goal with |- context[call (RBulk ?k ?d) (mkSt (s_rd (at_bytes ?b ?al)) ?a)] => change (mkSt (s_rd (at_bytes b al)) a) with (at_bytes b a); rewrite BK; cbn [CodecModel.bind CodecModel.nums]; rewrite <- LV; eexists; reflexivity end).
      rewrite (CodecProofs.bytes_u8 _ F). replace (zlen l) with (zlen (map vnum l)) by (unfold zlen; now rewrite map_length). rewrite rd_take. cbn [CodecModel.bind]. exists al. now rewrite <- LV.
    + apply GEN. intros fuel s F. cbn [Read]. rewrite F, EP, E, EE. destruct (ru_kind u); [reflexivity|congruence|reflexivity].
Qed.

Lemma class_found T R Z0 gr t v : rfound R gr t v -> readable T R gr t -> zeros T Z0 t -> class T R Z0 gr t.
Proof.
  intros RF RB ZZ. destruct (rfound_codecs R gr t v RF) as [C V].
  assert (W : forall u, within T t u -> rwithin R t u).
  { intros u W. induction W as [|u w W IH D]; [constructor|]. apply rwithin_part with u; [exact IH|]. destruct (RB u W) as (SS & US & TO). unfold contains in D. unfold rcontains, same_shape in *. destruct (R u) eqn:E; rewrite ?SS in D, TO; try exact D; try contradiction.
    destruct (US u0 eq_refl) as (u' & E' & _). now rewrite E' in D. }
  intros u U. split; [now apply RB|]; split; [apply C; now apply W|now apply ZZ].
Qed.

Lemma read_back_class T R Z0 gr p t v old b : says T (VDyn t v) b ->
  R p = RPtr t -> rfound R gr t v -> readable T R gr t -> ~ open T t -> ~ is_ptr T t -> zeros T Z0 t -> shaped T t old ->
  exists x N, alike T t x v /\ forall fuel rest al, (N <= fuel)%nat ->
    exists al', Read R Z0 gr fuel (VDyn p (VRef old)) (at_bytes (b ++ rest) al) = Ok (VDyn p (VRef x), at_bytes rest al').
Proof.
  intros S EP RF RB NO NP ZZ SH.
  destruct (rfound_codecs R gr t v RF) as [C V].
  pose proof (class_found T R Z0 gr t v RF RB ZZ) as CL.
  pose proof (shape_eq T R Z0 gr t (class_self T R Z0 gr t CL)) as SE.
  inversion S as [|? u ? ? E U|? e l b' E E' L A|? e u l b' E E' K L A|? ? ? BI M]; subst.
  - rewrite E in SE. destruct SE as (r & ER & MA). destruct MA as (K1 & K2 & RD & _). exists v, 2%nat. split; [constructor|]. intros [|[|fuel]] rest al LF; try lia.
    destruct (RD v old b rest al U ltac:(discriminate)) as [al' X]. exists al'. cbn [Read]. rewrite not_failed, EP, ER, K2, X. reflexivity.
  - exfalso. assert (CE : class T R Z0 gr e) by (apply (class_part T R Z0 gr t); [exact CL|unfold contains; now rewrite E]). pose proof (shape_eq T R Z0 gr e (class_self T R Z0 gr e CE)) as X. now rewrite E' in X.
  - exfalso. assert (CE : class T R Z0 gr e) by (apply (class_part T R Z0 gr t); [exact CL|unfold contains; now rewrite E]). pose proof (shape_eq T R Z0 gr e (class_self T R Z0 gr e CE)) as X. rewrite E' in X. destruct X as (r & _ & MA). destruct MA as (K1 & _). congruence.
  - destruct (Read_ready T R Z0 gr p t v b old EP) as (x & AL & N0 & H); trivial.
    + unfold codec_target. destruct (R t) as [| | |e| | | |u|] eqn:E; trivial.
      * assert (TE : T t = SSl e). { destruct (T t); try congruence; try contradiction. destruct SE as (r & SE & _). discriminate. }
        assert (CE : class T R Z0 gr e) by (apply (class_part T R Z0 gr t); [exact CL|unfold contains; now rewrite TE]). pose proof (shape_eq T R Z0 gr e (class_self T R Z0 gr e CE)) as X. destruct (T e) eqn:TE'; try (rewrite X; exact Logic.I); try contradiction.
        destruct X as (r & -> & MA). destruct MA as (_ & K2 & _). congruence.
      * destruct (RB t (within_self T t)) as (_ & US & _). destruct (US u E) as (u' & E' & _). unfold by_itself in BI. now rewrite E' in BI.
    + apply (proj1 (class_ready T R Z0 gr) true t v b M Auto old CL SH). now repeat split.
    + exists x, N0. split; [exact AL|]. exact H.
Qed.

(** * C116: what was written is read back *)
(** A value of any type the reader can handle ([readable]: types may contain themselves and have their own methods), written by
    Write and read by Read into a variable of its type with any contents: Read consumes exactly what was written, whatever
    follows, and leaves the value in the variable, but for fields marked skip. The codecs are as any two histories left them. *)
Theorem C116_read_back_partial : forall T gw R Z0 gr p t v old b,
  found T gw (VDyn t v) -> neat T gw (VDyn t v) -> says T (VDyn t v) b ->
  R p = RPtr t -> rfound R gr t v -> readable T R gr t -> ~ open T t -> ~ is_ptr T t -> zeros T Z0 t -> shaped T t old ->
  Write T gw (VDyn t v) = Ok b /\
  exists x N, alike T t x v /\ forall fuel rest al, (N <= fuel)%nat ->
    exists al', Read R Z0 gr fuel (VDyn p (VRef old)) (at_bytes (b ++ rest) al) = Ok (VDyn p (VRef x), at_bytes rest al').
Proof.
  intros T gw R Z0 gr p t v old b F N S EP RF RB NO NP ZZ SH. split; [now apply C115_layout_partial|].
  now apply read_back_class.
Qed.
Print Assumptions C116_read_back_partial.
(** The same, for the last value of a message: WriteTail and ReadTail. *)
Definition tail_target (T : nat -> shape) (t : nat) : Prop := tails T t \/ exists e k, T t = SSl e /\ T e = SNum k.
Theorem C116_read_back_tail_partial : forall T gw R Z0 gr p t v old b,
  found T gw (VDyn t v) -> neat T gw (VDyn t v) -> says_tail T (VDyn t v) b ->
  R p = RPtr t -> rfound R gr t v -> readable T R gr t -> tail_target T t -> zeros T Z0 t -> shaped T t old ->
  WriteTail T gw (VDyn t v) = Ok b /\
  exists x N, alike T t x v /\ forall fuel al, (N <= fuel)%nat ->
    exists al', ReadTail R Z0 gr fuel (VDyn p (VRef old)) (at_bytes b al) = Ok (VDyn p (VRef x), at_bytes [] al').
Proof.
  intros T gw R Z0 gr p t v old b F N S EP RF RB TG ZZ SH. split; [now apply C115_layout_tail_partial|].
  pose proof (class_found T R Z0 gr t v RF RB ZZ) as CL. destruct (rfound_codecs R gr t v RF) as [C V].
  pose proof (shape_eq T R Z0 gr t (class_self T R Z0 gr t CL)) as SE.
  inversion S as [|? u ? ? E U|? e l b' E E' A|? e u l b' E E' K A|? ? ? BI M]; subst.
  - rewrite E in SE. destruct SE as (r & ER & MA). destruct MA as (K1 & K2 & RD & _). exists v, 0%nat. split; [constructor|]. intros fuel al LF.
    destruct (RD v old b [] al U ltac:(discriminate)) as [al' X]. rewrite app_nil_r in X. exists al'. unfold ReadTail. rewrite not_failed, EP, ER, K2, X. reflexivity.
  - exfalso. assert (CE : class T R Z0 gr e) by (apply (class_part T R Z0 gr t); [exact CL|unfold contains; now rewrite E]). pose proof (shape_eq T R Z0 gr e (class_self T R Z0 gr e CE)) as X. now rewrite E' in X.
  - exfalso. assert (CE : class T R Z0 gr e) by (apply (class_part T R Z0 gr t); [exact CL|unfold contains; now rewrite E]). pose proof (shape_eq T R Z0 gr e (class_self T R Z0 gr e CE)) as X. rewrite E' in X. destruct X as (r & _ & MA). destruct MA as (K1 & _). congruence.
  - assert (NU : forall r, R t <> RUser r). { intros r E. destruct (RB t (within_self T t)) as (_ & US & _). destruct (US r E) as (u' & E' & _). unfold by_itself in BI. now rewrite E' in BI. }
    assert (NUM : (exists e k, T t = SSl e /\ T e = SNum k) \/ ~ (exists e k, R t = RSl e /\ R e = RNum k) /\ tails T t).
    { assert (D : (exists e k, R t = RSl e /\ R e = RNum k) \/ ~ exists e k, R t = RSl e /\ R e = RNum k).
      { destruct (R t) as [| | |e| | | | |]; try (right; intros (? & ? & Q & _); discriminate). destruct (R e) eqn:Q; try (right; intros (? & ? & Q1 & Q2); injection Q1 as <-; rewrite Q in Q2; discriminate). left. eauto. }
      destruct D as [(e & k & D1 & D2)|D].
      - left. exists e, k. destruct (RB t (within_self T t)) as (SS & _). rewrite D1 in SS. cbn in SS. split; [exact SS|].
        destruct (RB e) as (SS' & _); [apply within_part with t; [constructor|unfold contains; now rewrite SS]|]. rewrite D2 in SS'. exact SS'.
      - destruct TG as [TG|TG]; [now right|now left]. }
    destruct NUM as [(e & k & ET & ET')|[NN TL]].
    + rewrite ET in SE. assert (CE : class T R Z0 gr e) by (apply (class_part T R Z0 gr t); [exact CL|unfold contains; now rewrite ET]). pose proof (shape_eq T R Z0 gr e (class_self T R Z0 gr e CE)) as X. rewrite ET' in X.
      inversion M as [| | |? ? e' l b' E2 L2 I2| | | | | | |]; subst; try congruence. rewrite ET in E2. injection E2 as <-. cbn [count4 app] in *.
      destruct (NomLay.nums T e k l b' ET' I2) as [Fk ->]. pose proof (num_items T e k l _ ET' I2) as LV. exists (VSeq l), 0%nat. split; [constructor|]. intros fuel al _. unfold ReadTail. rewrite not_failed, EP, SE, X.
      assert (LEN : zlen (flat_map (layout k) (map vnum l)) = zlen (map vnum l) * Z.of_nat (width k)) by (unfold zlen; rewrite PrimProofs.flat_len; lia).
      pose proof (width_pos k) as W. pose proof (call_bulk k (map vnum l) [] (al ++ [zlen (map vnum l)]) Fk) as CB. rewrite app_nil_r in CB.
      replace (Z.quot (zlen (r_body (s_rd (at_bytes (flat_map (layout k) (map vnum l)) al)))) (Z.of_nat (width k))) with (zlen (map vnum l)) by (cbn [at_bytes CodecModel.s_rd r_body]; rewrite LEN, Z.quot_mul; lia).
      replace (Z.to_nat (zlen (map vnum l))) with (length (map vnum l)) by (symmetry; apply Nat2Z.id).
      change (mkSt (s_rd (at_bytes (flat_map (layout k) (map vnum l)) al)) (s_alloc (at_bytes (flat_map (layout k) (map vnum l)) al) ++ [zlen (map vnum l)])) with (at_bytes (flat_map (layout k) (map vnum l)) (al ++ [zlen (map vnum l)])).
      rewrite CB. cbn [CodecModel.bind CodecModel.nums]. destruct k; try (rewrite <- LV; eexists; reflexivity).
      rewrite (CodecProofs.bytes_u8 _ Fk). rewrite rd_tail. cbn [CodecModel.bind CodecModel.nums]. rewrite <- LV. eexists. reflexivity.
    + destruct (proj1 (rd_means T R Z0 gr) false t v b M CodecModel.Tail true old) as (N0 & x & AL & H); trivial.
      { apply (proj1 (class_ready T R Z0 gr) false t v b M CodecModel.Tail old CL SH). now split. }
      exists x, N0. split; [exact AL|]. intros fuel al LF. destruct (H fuel [] LF (fun _ => eq_refl) al) as [al' X]. rewrite app_nil_r in X. exists al'. unfold ReadTail. rewrite not_failed, EP.
      destruct (R t) as [| | |e'| | | |u|] eqn:ER; try (rewrite X; reflexivity); [|now destruct (NU u)]. destruct (R e') eqn:ER'; try (rewrite X; reflexivity). exfalso. apply NN. eauto.
Qed.
Print Assumptions C116_read_back_tail_partial.
(** Values of all types, interfaces and types with methods on any receiver included: what the variable holds must fit the value
    ([ready]: interfaces hold pointers of the same types, pointers are not nil unless under cnt() or size()). *)
Theorem C116_read_back_fitting_partial : forall T gw R Z0 gr p t v old b,
  found T gw (VDyn t v) -> neat T gw (VDyn t v) -> says T (VDyn t v) b -> by_itself T t = false ->
  R p = RPtr t -> codec_target R t -> rfound R gr t v -> ready T R gr Z0 CodecModel.Auto true true t v old ->
  Write T gw (VDyn t v) = Ok b /\
  exists x N, alike T t x v /\ forall fuel rest al, (N <= fuel)%nat ->
    exists al', Read R Z0 gr fuel (VDyn p (VRef old)) (at_bytes (b ++ rest) al) = Ok (VDyn p (VRef x), at_bytes rest al').
Proof.
  intros T gw R Z0 gr p t v old b F N S BI EP CT RF RD. split; [now apply C115_layout_partial|].
  destruct (rfound_codecs R gr t v RF) as [C V]. unfold by_itself in BI.
  assert (M : means T true t v b).
  { inversion S as [|? u ? ? E U|? e l b' E E' L A|? e u l b' E E' K L A|? ? ? BI' M]; subst; trivial; rewrite E in BI; try discriminate; unfold is_iface in BI; rewrite E' in BI; try discriminate. now rewrite K in BI. }
  destruct (Read_ready T R Z0 gr p t v b old EP CT M RD C V) as (x & AL & N0 & H). exists x, N0. split; [exact AL|]. exact H.
Qed.
Print Assumptions C116_read_back_fitting_partial.
(** ** the exceptions *)
(** what the property says of one value and one variable *)
Definition read_back (T : nat -> shape) (R : nat -> rshape) (Z0 : nat -> dv) (gr : nat -> info) (p t : nat) (v old : dv) (b : list Z) : Prop :=
  exists x N, alike T t x v /\ forall fuel rest al, (N <= fuel)%nat ->
    exists al', Read R Z0 gr fuel (VDyn p (VRef old)) (at_bytes (b ++ rest) al) = Ok (VDyn p (VRef x), at_bytes rest al').
Ltac held H := repeat match type of H with
    | holds _ (VDyn _ _) => inversion H; clear H; subst
    end; repeat match goal with
    | H : holds _ (VDyn _ _) |- _ => inversion H; clear H; subst
    | H : holds _ (VSeq _) |- _ => inversion H; clear H; subst
    | H : holds _ (VRef _) |- _ => inversion H; clear H; subst
    | H : holds _ (VNum _) |- _ => inversion H
    | H : holds _ (VStr _) |- _ => inversion H
    | H : holds _ VNil |- _ => inversion H
    | H : In _ _ |- _ => cbn in H
    | H : _ \/ _ |- _ => destruct H as [<-|H]
    | H : False |- _ => destruct H
    end.
(** type S struct { A string }; type W struct { P *S `iproto:"size(i8)"` }: Read of what Write wrote is an error *)
Definition psize (t : nat) : shape := match t with 0 => SStruct [(TgSize CodecModel.P8, 1)] | 1 => SPtr 2 | 2 => SStruct [(TgAuto, 3)] | 3 => SStr | _ => SPtr 0 end%nat.
Definition rpsize (t : nat) : rshape := match t with 0 => RStruct [(TgSize CodecModel.P8, 1)] | 1 => RPtr 2 | 2 => RStruct [(TgAuto, 3)] | 3 => RStr | _ => RPtr 0 end%nat.
Definition pzero (t : nat) : dv := match t with 0 => VSeq [VNil] | 2 => VSeq [VStr []] | 3 => VStr [] | _ => VNil end%nat.
Theorem C116_pointer_under_size_refuted : exists T gw R Z0 gr p t v old b,
  found T gw (VDyn t v) /\ neat T gw (VDyn t v) /\ says T (VDyn t v) b /\ Write T gw (VDyn t v) = Ok b /\
  R p = RPtr t /\ rfound R gr t v /\ (forall u, same_shape (T u) (R u)) /\ (forall u, shaped T u (Z0 u)) /\ shaped T t old /\
  exists x s N, forall fuel, (N <= fuel)%nat -> Read R Z0 gr fuel (VDyn p (VRef old)) (at_bytes b []) = Ok (x, s) /\ failed s = true.
Proof.
  exists psize, (after psize (calls 20 0 0)), rpsize, pzero, (rafter rpsize (calls 20 0 0)), 4%nat, 0%nat, (VSeq [VRef (VSeq [VStr [97]])]), (VSeq [VNil]), [5; 1;0;0;0; 97].
  split; [intros t H; exists (calls 20 0 0); split; [|reflexivity]; held H; exists 0%nat; eexists; vm_compute; tauto|].
  split; [vm_compute; repeat split; try discriminate; left; reflexivity|].
  split. { apply sa_value; [reflexivity|]. apply me_struct with [(TgSize CodecModel.P8, 1%nat)]; [reflexivity|]. apply (pa_size psize CodecModel.P8 1 [] (VRef (VSeq [VStr [97]])) [] [1;0;0;0;97] []); [|cbn; lia|constructor].
    apply me_ptr with 2%nat; [reflexivity|]. apply me_struct with [(TgAuto, 3%nat)]; [reflexivity|]. apply (pa_auto psize 3 [] (VStr [97]) [] [1;0;0;0;97] []); [|constructor]. now apply (me_str psize true 3 [97]). }
  split; [vm_compute; reflexivity|]. split; [reflexivity|].
  split; [intros u [-> |H]; [exists (calls 20 0 0); split; [|reflexivity]; exists 0%nat; eexists; vm_compute; tauto|held H]|].
  split; [intros [|[|[|[|u]]]]; reflexivity|].
  split. { intros [|[|[|[|u]]]]; cbn [pzero]; [eapply sh_struct; [reflexivity|]; repeat econstructor| | | |]; try (eapply sh_nil; reflexivity); [eapply sh_struct; [reflexivity|]; repeat econstructor|now apply sh_str]. }
  split; [eapply sh_struct; [reflexivity|]; repeat econstructor|].
  eexists _, _, 10%nat. intros fuel LF. replace fuel with (10 + (fuel - 10))%nat by lia. generalize (fuel - 10)%nat. intro n. split; [vm_compute; reflexivity|reflexivity].
Qed.
Print Assumptions C116_pointer_under_size_refuted.
(** type W struct { P *int8 }: read into a W with P nil, nothing is read, and no error given *)
Definition pfield (t : nat) : shape := match t with 0 => SStruct [(TgAuto, 1)] | 1 => SPtr 2 | 2 => SNum I8 | _ => SPtr 0 end%nat.
Definition rpfield (t : nat) : rshape := match t with 0 => RStruct [(TgAuto, 1)] | 1 => RPtr 2 | 2 => RNum I8 | _ => RPtr 0 end%nat.
Definition pfzero (t : nat) : dv := match t with 0 => VSeq [VNil] | 2 => VNum 0 | _ => VNil end%nat.
Theorem C116_nil_pointer_refuted : exists T gw R Z0 gr p t v old b,
  found T gw (VDyn t v) /\ neat T gw (VDyn t v) /\ says T (VDyn t v) b /\ Write T gw (VDyn t v) = Ok b /\
  R p = RPtr t /\ rfound R gr t v /\ (forall u, same_shape (T u) (R u)) /\ (forall u, shaped T u (Z0 u)) /\ shaped T t old /\
  b <> [] /\ exists N, forall fuel, (N <= fuel)%nat -> Read R Z0 gr fuel (VDyn p (VRef old)) (at_bytes b []) = Ok (VDyn p (VRef old), at_bytes b []).
Proof.
  exists pfield, (after pfield (calls 20 0 0)), rpfield, pfzero, (rafter rpfield (calls 20 0 0)), 3%nat, 0%nat, (VSeq [VRef (VNum 5)]), (VSeq [VNil]), [5].
  split; [intros t H; exists (calls 20 0 0); split; [|reflexivity]; held H; exists 0%nat; eexists; vm_compute; tauto|].
  split; [vm_compute; repeat split; try discriminate; left; reflexivity|].
  split. { apply sa_value; [reflexivity|]. apply me_struct with [(TgAuto, 1%nat)]; [reflexivity|]. apply (pa_auto pfield 1 [] (VRef (VNum 5)) [] [5] []); [|constructor].
    apply me_ptr with 2%nat; [reflexivity|]. apply (me_num pfield _ 2%nat I8 5); [reflexivity|cbn; lia]. }
  split; [vm_compute; reflexivity|]. split; [reflexivity|].
  split; [intros u [-> |H]; [exists (calls 20 0 0); split; [|reflexivity]; exists 0%nat; eexists; vm_compute; tauto|held H]|].
  split; [intros [|[|[|u]]]; reflexivity|].
  split. { intros [|[|[|u]]]; cbn [pfzero]; [eapply sh_struct; [reflexivity|]; repeat econstructor| | |]; try (eapply sh_nil; reflexivity); eapply sh_num; reflexivity. }
  split; [eapply sh_struct; [reflexivity|]; repeat econstructor|]. split; [discriminate|].
  exists 10%nat. intros fuel LF. replace fuel with (10 + (fuel - 10))%nat by lia. generalize (fuel - 10)%nat. intro n. vm_compute. reflexivity.
Qed.
Print Assumptions C116_nil_pointer_refuted.
(** type W struct { B interface{} }: read into a W whose B holds an int8, as the one written does, Read panics *)
Definition ifield (t : nat) : shape := match t with 0 => SStruct [(TgAuto, 1)] | 1 => SIface | 2 => SNum I8 | _ => SPtr 0 end%nat.
Definition rifield (t : nat) : rshape := match t with 0 => RStruct [(TgAuto, 1)] | 1 => RIface | 2 => RNum I8 | _ => RPtr 0 end%nat.
Theorem C116_interface_refuted : exists T gw R gr p t v b,
  found T gw (VDyn t v) /\ neat T gw (VDyn t v) /\ says T (VDyn t v) b /\ Write T gw (VDyn t v) = Ok b /\
  R p = RPtr t /\ rfound R gr t v /\ (forall u, same_shape (T u) (R u)) /\
  exists N, forall Z0 fuel, (N <= fuel)%nat -> Read R Z0 gr fuel (VDyn p (VRef v)) (at_bytes b []) = Panic.
Proof.
  exists ifield, (after ifield (calls 20 0 0 ++ calls 20 1 2)), rifield, (rafter rifield (calls 20 0 0 ++ calls 20 1 2)), 3%nat, 0%nat, (VSeq [VDyn 2 (VNum 5)]), [5].
  split; [intros t H; exists (calls 20 0 0 ++ calls 20 1 2); split; [|reflexivity]; held H; [exists 0%nat|exists 1%nat]; eexists; vm_compute; tauto|].
  split; [vm_compute; repeat split; try discriminate; left; reflexivity|].
  split. { apply sa_value; [reflexivity|]. apply me_struct with [(TgAuto, 1%nat)]; [reflexivity|]. apply (pa_auto ifield 1 [] (VDyn 2 (VNum 5)) [] [5] []); [|constructor].
    apply me_iface; [reflexivity|]. apply (me_num ifield _ 2%nat I8 5); [reflexivity|cbn; lia]. }
  split; [vm_compute; reflexivity|]. split; [reflexivity|].
  split; [intros u [-> |H]; [exists (calls 20 0 0 ++ calls 20 1 2); split; [|reflexivity]; exists 0%nat; eexists; vm_compute; tauto|held H; exists (calls 20 0 0 ++ calls 20 1 2); split; [|reflexivity]; exists 1%nat; eexists; vm_compute; tauto]|].
  split; [intros [|[|[|u]]]; reflexivity|].
  exists 10%nat. intros Z0 fuel LF. replace fuel with (10 + (fuel - 10))%nat by lia. generalize (fuel - 10)%nat. intro n. vm_compute. reflexivity.
Qed.
Print Assumptions C116_interface_refuted.
(** type W struct { U U }, where U has IWrite and ICount, and, on its pointer, IRead with a self argument and ISetCount: the count
    is written but not read *)
Definition take2 (old : dv) (s : st) : out (dv * st) :=
  match r_body (s_rd s) with
  | x :: _ :: l => Ok (VNum x, mkSt (mkRd l (r_err (s_rd s))) (s_alloc s))
  | _ => Ok (old, fail s EShort)
  end.
Definition rtwice (long : bool) : ruser := mkRU KOther true long take2 None None (Some (fun v _ => Ok (v, true))) true.
Definition ufield (t : nat) : shape := match t with 0 => SStruct [(TgAuto, 1)] | 1 => SUser twice | _ => SPtr 0 end%nat.
Definition rufield (t : nat) : rshape := match t with 0 => RStruct [(TgAuto, 1)] | 1 => RUser (rtwice true) | _ => RPtr 0 end%nat.
Theorem C116_count_setter_refuted : exists T gw R gr p t v old b u r,
  found T gw (VDyn t v) /\ neat T gw (VDyn t v) /\ says T (VDyn t v) b /\ Write T gw (VDyn t v) = Ok b /\
  R p = RPtr t /\ rfound R gr t v /\ (forall u, same_shape (T u) (R u)) /\
  T 1%nat = SUser u /\ R 1%nat = RUser r /\ undone_by (ru_read r) u false /\
  exists x rest N, rest <> [] /\ ~ alike T t x v /\ forall Z0 fuel, (N <= fuel)%nat -> Read R Z0 gr fuel (VDyn p (VRef old)) (at_bytes b []) = Ok (VDyn p (VRef x), at_bytes rest []).
Proof.
  exists ufield, (after ufield (calls 20 0 0)), rufield, (rafter rufield (calls 20 0 0)), 3%nat, 0%nat, (VSeq [VNum 5]), (VSeq [VNum 0]), [1;0;0;0; 5;5], twice, (rtwice true).
  split; [intros t H; exists (calls 20 0 0); split; [|reflexivity]; held H; exists 0%nat; eexists; vm_compute; tauto|].
  split; [vm_compute; repeat split; try discriminate; left; reflexivity|].
  split. { apply sa_value; [reflexivity|]. apply me_struct with [(TgAuto, 1%nat)]; [reflexivity|]. apply (pa_auto ufield 1 [] (VNum 5) [] [1;0;0;0;5;5] []); [|constructor].
    apply (me_counted ufield 1 twice (VNum 5) 1 [5;5]); trivial; [discriminate| |lia]. now apply (am_user ufield 1 twice (fun _ => 1)); [|left| |]. }
  split; [vm_compute; reflexivity|]. split; [reflexivity|].
  split; [intros u [-> |H]; [exists (calls 20 0 0); split; [|reflexivity]; exists 0%nat; eexists; vm_compute; tauto|held H]|].
  split; [intros [|[|u]]; reflexivity|]. split; [reflexivity|]. split; [reflexivity|].
  split. { intros v old b rest al W _. destruct v; try discriminate. injection W as <-. exists al. reflexivity. }
  exists (VSeq [VNum 1]), [0;0;5;5], 10%nat. split; [discriminate|]. split.
  { intro A. inversion A as [| | | |? fs ? ? E AF|]; subst; try discriminate. injection E as <-. inversion AF; subst. match goal with A : alike _ _ (VNum 1) (VNum 5) |- _ => inversion A end. }
  intros Z0 fuel LF. replace fuel with (10 + (fuel - 10))%nat by lia. generalize (fuel - 10)%nat. intro n. vm_compute. reflexivity.
Qed.
Print Assumptions C116_count_setter_refuted.

(** * C117: what is read does not depend on which types were used before *)
(** After any two histories of calls of ReaderFor, what Write wrote is read to its end and gives the same value *)
Theorem C117_same_value_partial : forall T R Z0 g g' p t v old b, says T (VDyn t v) b ->
  R p = RPtr t -> rfound R g t v -> rfound R g' t v -> readable T R g t -> readable T R g' t -> ~ open T t -> ~ is_ptr T t -> zeros T Z0 t -> shaped T t old ->
  exists x x' N, alike T t x v /\ alike T t x' v /\ forall fuel rest al, (N <= fuel)%nat ->
    exists al' al'', Read R Z0 g fuel (VDyn p (VRef old)) (at_bytes (b ++ rest) al) = Ok (VDyn p (VRef x), at_bytes rest al') /\
      Read R Z0 g' fuel (VDyn p (VRef old)) (at_bytes (b ++ rest) al) = Ok (VDyn p (VRef x'), at_bytes rest al'').
Proof.
  intros T R Z0 g g' p t v old b S EP RF RF' RB RB' NO NP ZZ SH.
  destruct (read_back_class T R Z0 g p t v old b S EP RF RB NO NP ZZ SH) as (x & N & A & H). destruct (read_back_class T R Z0 g' p t v old b S EP RF' RB' NO NP ZZ SH) as (x' & N' & A' & H').
  exists x, x', (Nat.max N N'). split; [exact A|]. split; [exact A'|]. intros fuel rest al LF. destruct (H fuel rest al ltac:(lia)) as [al' Q]. destruct (H' fuel rest al ltac:(lia)) as [al'' Q']. exists al', al''. now split.
Qed.
Print Assumptions C117_same_value_partial.
(** type N struct { A int8; Kids []N }; type W struct { Ns []N }. If ReaderFor was called for []N first, the size kept for N is 0, and
    Read of a W reads nothing; if for N first, it reads the elements. *)
Definition order (t : nat) : rshape := match t with 0 => RStruct [(TgAuto, 2); (TgAuto, 1)] | 1 => RSl 0 | 2 => RNum I8 | 3 => RStruct [(TgAuto, 1)] | _ => RPtr 3 end%nat.
Theorem C117_history_refuted : exists R es es' p t b old x, R p = RPtr t /\ rgiven R es t /\ rgiven R es' t /\ x <> old /\ b <> [] /\
  exists Z0 N, forall fuel, (N <= fuel)%nat -> Read R Z0 (rafter R es) fuel (VDyn p (VRef old)) (at_bytes b []) = Ok (VDyn p (VRef x), at_bytes [] [1]) /\
    Read R Z0 (rafter R es') fuel (VDyn p (VRef old)) (at_bytes b []) = Ok (VDyn p (VRef old), at_bytes b []).
Proof.
  exists order, (calls 20 0 0 ++ calls 20 1 3), (calls 20 0 1 ++ calls 20 1 3), 4%nat, 3%nat, [1;0;0;0; 7; 0;0;0;0], (VSeq [VSeq []]), (VSeq [VSeq [VSeq [VNum 7; VSeq []]]]).
  split; [reflexivity|]. split; [exists 1%nat; eexists; vm_compute; tauto|]. split; [exists 1%nat; eexists; vm_compute; tauto|]. split; [discriminate|]. split; [discriminate|].
  exists (fun t => match t with 0 => VSeq [VNum 0; VSeq []] | 2 => VNum 0 | _ => VSeq [] end%nat), 20%nat. intros fuel LF. replace fuel with (20 + (fuel - 20))%nat by lia. generalize (fuel - 20)%nat. intro n. split; vm_compute; reflexivity.
Qed.
Print Assumptions C117_history_refuted.

(** ** a case that meets the hypotheses *)
(** type T struct { Kids []T; A int8; C *[2]int8 `iproto:"cnt(i16)"`; U U; S string `iproto:"skip"`; Next *T `iproto:"cnt(i8)"` } where U
    has IWrite, ISize, ICount, and IRead and ISetCount on its pointer *)
Definition tfields : list (tag * nat) := [(TgAuto, 1); (TgAuto, 3); (TgCnt CodecModel.P16, 5); (TgAuto, 7); (TgSkip, 8); (TgCnt CodecModel.P8, 9)]%nat.
Definition tree (t : nat) : shape := match t with 0 => SStruct tfields | 1 => SSl 0 | 3 => SNum I8 | 5 => SPtr 6 | 6 => SArr 2 3 | 7 => SUser twice | 8 => SStr | _ => SPtr 0 end%nat.
Definition rtree (t : nat) : rshape := match t with 0 => RStruct tfields | 1 => RSl 0 | 3 => RNum I8 | 5 => RPtr 6 | 6 => RArr 2 3 | 7 => RUser (rtwice false) | 8 => RStr | _ => RPtr 0 end%nat.
Definition tzero (t : nat) : dv := match t with 0 => VSeq [VSeq []; VNum 0; VNil; VNum 0; VStr []; VNil] | 1 => VSeq [] | 3 | 7 => VNum 0 | 6 => VSeq [VNum 0; VNum 0] | 8 => VStr [] | _ => VNil end%nat.
Definition tes : list ev := calls 60 0 1 ++ calls 20 1 0.
Definition tleaf : dv := VSeq [VSeq []; VNum (-1); VNil; VNum 9; VStr []; VNil].
Definition ttip : dv := VSeq [VSeq [tleaf]; VNum 5; VRef (VSeq [VNum 1; VNum 2]); VNum 4; VStr [104]; VRef tleaf].
Definition tleafb : list Z := [0;0;0;0; 255; 0;0; 1;0;0;0; 9;9; 0].
Definition ttipb : list Z := [1;0;0;0] ++ tleafb ++ [5; 2;0; 1;2; 1;0;0;0; 4;4; 1] ++ tleafb.
Definition told : dv := VSeq [VSeq [tleaf; tleaf; tleaf]; VNum 77; VNil; VNum 0; VStr [1; 2]; VNil].
Lemma tree_found : found tree (after tree tes) (VDyn 0 ttip).
Proof. intros t H. exists tes. split; [|reflexivity]. unfold ttip, tleaf in H. held H. exists 1%nat. eexists. vm_compute. tauto. Qed.
Lemma tree_rfound : rfound rtree (rafter rtree tes) 0 ttip.
Proof. intros t [-> |H]; [|unfold ttip, tleaf in H; held H]. exists tes. split; [|reflexivity]. exists 1%nat. eexists. vm_compute. tauto. Qed.
Lemma tleaf_means a : means tree a 0 tleaf tleafb.
Proof.
  apply me_struct with tfields; [reflexivity|].
  apply (pa_auto tree 1 _ (VSeq []) _ [0;0;0;0] (skipn 4 tleafb)); [apply (me_sl tree true 1 0%nat [] []); [reflexivity|cbn; lia|constructor]|].
  apply (pa_auto tree 3 _ (VNum (-1)) _ [255] (skipn 5 tleafb)); [apply (me_num tree true 3%nat I8 (-1)); [reflexivity|cbn; lia]|].
  apply (pa_cnt tree CodecModel.P16 5 _ VNil _ 0 [] (skipn 7 tleafb)); [now apply me_nil with 6%nat|now apply am_nilptr with 6%nat|cbn; lia|].
  apply (pa_auto tree 7 _ (VNum 9) _ [1;0;0;0;9;9] (skipn 13 tleafb)).
  { apply (me_counted tree 7 twice (VNum 9) 1 [9;9]); trivial; [discriminate| |lia]. now apply (am_user tree 7 twice (fun _ => 1)); [|left| |]. }
  apply pa_skip. apply (pa_cnt tree CodecModel.P8 9 _ VNil _ 0 [] []); [now apply me_nil with 0%nat|now apply am_nilptr with 0%nat|cbn; lia|constructor].
Qed.
Lemma tree_says : says tree (VDyn 0 ttip) ttipb.
Proof.
  apply sa_value; [reflexivity|]. apply me_struct with tfields; [reflexivity|].
  change ttipb with (([1;0;0;0] ++ tleafb ++ []) ++ skipn 18 ttipb). apply pa_auto.
  { apply (me_sl tree true 1 0%nat [tleaf] (tleafb ++ [])); [reflexivity|cbn; lia|]. constructor; [apply tleaf_means|constructor]. }
  apply (pa_auto tree 3 _ (VNum 5) _ [5] (skipn 19 ttipb)); [apply (me_num tree true 3%nat I8 5); [reflexivity|cbn; lia]|].
  apply (pa_cnt tree CodecModel.P16 5 _ (VRef (VSeq [VNum 1; VNum 2])) _ 2 [1;2] (skipn 23 ttipb)).
  { apply me_ptr with 6%nat; [reflexivity|]. apply me_arr with 2%nat 3%nat; [reflexivity|reflexivity|].
    apply (it_cons tree 3 (VNum 1) _ [1] [2]); [apply (me_num tree true 3%nat I8 1); [reflexivity|cbn; lia]|]. apply (it_cons tree 3 (VNum 2) _ [2] []); [apply (me_num tree true 3%nat I8 2); [reflexivity|cbn; lia]|constructor]. }
  { apply am_ptr with 6%nat; [reflexivity|]. now apply (am_arr tree 6 2 3). }
  { cbn. lia. }
  apply (pa_auto tree 7 _ (VNum 4) _ [1;0;0;0;4;4] (skipn 29 ttipb)).
  { apply (me_counted tree 7 twice (VNum 4) 1 [4;4]); trivial; [discriminate| |lia]. now apply (am_user tree 7 twice (fun _ => 1)); [|left| |]. }
  apply pa_skip. apply (pa_cnt tree CodecModel.P8 9 _ (VRef tleaf) _ 1 tleafb []); [apply me_ptr with 0%nat; [reflexivity|apply tleaf_means]|apply am_ptr with 0%nat; [reflexivity|]; now apply (am_struct tree 0 tfields)|cbn; lia|constructor].
Qed.
Lemma tree_neat : neat tree (after tree tes) (VDyn 0 ttip).
Proof. vm_compute. repeat split; try discriminate; try (left; reflexivity); try exact Logic.I. Qed.
Lemma tree_within u : within tree 0 u -> In u [0;1;3;5;6;7;9]%nat.
Proof.
  intro W. induction W as [|u w W IH D]; [now left|]. cbn in IH. repeat (destruct IH as [<-|IH]; [cbn in D; try (subst w; cbn; tauto); try contradiction|]); [|contradiction].
  destruct D as (tg & D & NS). cbn in D. repeat (destruct D as [D|D]; [injection D as <- <-; cbn; tauto || congruence|]). contradiction.
Qed.
Lemma tree_open u : ~ open tree u.
Proof. assert (Q : forall u fs e, tree u = SStruct fs -> ~ In (TgNo, e) fs). { intros v fs e E. assert (fs = tfields) as -> by (do 10 (destruct v as [|v]; [cbn in E; congruence|]); cbn in E; congruence). cbn. intuition discriminate. }
  intro O. induction O as [t fs e E H _|t fs e E H _ _]; now apply (Q t fs e) in H. Qed.
Definition rsz (t : nat) : Z := i_sz (rafter rtree tes t).
Lemma tree_sizes : rsz 1 = -1 /\ rsz 3 = 1 /\ rsz 7 = -1.
Proof. vm_compute. tauto. Qed.
Lemma tree_readable_at g : i_sz (g 1%nat) = -1 /\ i_sz (g 3%nat) = 1 /\ i_sz (g 7%nat) = -1 -> readable tree rtree g 0.
Proof.
  intros (S1 & S3 & S7).
  intros u W. apply tree_within in W. cbn in W.
  repeat (destruct W as [<-|W]; [split; [reflexivity|]; split; [|cbn]|]); try contradiction; try (intros r E; discriminate); try (split; [apply tree_open|try exact Logic.I; try discriminate; try (intros []; fail)]); trivial.
  - unfold tfields. repeat constructor; cbn; try discriminate; try apply tree_open; rewrite ?S1, ?S3, ?S7; try discriminate; intro Q; exact Q.
  - intros r E. injection E as <-. exists twice. split; [reflexivity|]. split; [reflexivity|]. split; [reflexivity|]. split.
    { intros v old b rest al W0 _. destruct v; try discriminate. injection W0 as <-. exists al. reflexivity. }
    split; [exact Logic.I|]. split; [exact Logic.I|]. cbn. intros old n. now exists old.
  - now exists (rtwice false).
Qed.
Lemma tree_readable : readable tree rtree (rafter rtree tes) 0.
Proof. apply tree_readable_at. exact tree_sizes. Qed.
Ltac vshape := first [eapply sh_num; reflexivity | eapply sh_str; reflexivity | eapply sh_nil; reflexivity | eapply sh_user; reflexivity | eapply sh_sl; [reflexivity|constructor]].
Ltac fshape := repeat first [apply shf_nil | apply shf_skip | apply shf_cons; [vshape|]].
Lemma tree_zeros : zeros tree tzero 0.
Proof.
  intros u W. apply tree_within in W. cbn in W. repeat (destruct W as [<-|W]; [cbn [tzero]|]); [ | | | | | | |contradiction].
  - eapply sh_struct; [reflexivity|]. fshape.
  - eapply sh_sl; [reflexivity|constructor].
  - eapply sh_num; reflexivity.
  - eapply sh_nil; reflexivity.
  - eapply sh_arr; [reflexivity|reflexivity|]. repeat (apply shs_cons; [vshape|]). apply shs_nil.
  - eapply sh_user; reflexivity.
  - eapply sh_nil; reflexivity.
Qed.
Lemma told_shaped : shaped tree 0 told.
Proof.
  assert (L : shaped tree 0 tleaf). { eapply sh_struct; [reflexivity|]. apply shf_cons; [eapply sh_sl; [reflexivity|constructor]|]. fshape. }
  eapply sh_struct; [reflexivity|]. apply shf_cons; [eapply sh_sl; [reflexivity|]; repeat (constructor; [exact L|]); constructor|]. fshape.
Qed.
Example C116_met : Write tree (after tree tes) (VDyn 0 ttip) = Ok ttipb /\
  exists x N, alike tree 0 x ttip /\ forall fuel rest al, (N <= fuel)%nat ->
    exists al', Read rtree tzero (rafter rtree tes) fuel (VDyn 9 (VRef told)) (at_bytes (ttipb ++ rest) al) = Ok (VDyn 9 (VRef x), at_bytes rest al').
Proof.
  apply C116_read_back_partial; [exact tree_found|exact tree_neat|exact tree_says|reflexivity|exact tree_rfound|exact tree_readable|apply tree_open|intros []|exact tree_zeros|exact told_shaped].
Qed.
(** with the field S kept as it was in the variable *)
Example C116_computed : Read rtree tzero (rafter rtree tes) 20 (VDyn 9 (VRef told)) (at_bytes (ttipb ++ [7]) []) =
  Ok (VDyn 9 (VRef (VSeq [VSeq [tleaf]; VNum 5; VRef (VSeq [VNum 1; VNum 2]); VNum 4; VStr [1; 2]; VRef tleaf])), at_bytes [7] [1]).
Proof. vm_compute. reflexivity. Qed.
(** the last value of a message: type M []T *)
Lemma tree_says_tail : says_tail tree (VDyn 1 (VSeq [tleaf; tleaf])) (tleafb ++ tleafb ++ []).
Proof. apply st_value; [reflexivity|]. apply (me_sl tree false 1 0%nat [tleaf; tleaf] (tleafb ++ tleafb ++ [])); [reflexivity|cbn; lia|]. constructor; [apply tleaf_means|]. constructor; [apply tleaf_means|constructor]. Qed.
Lemma tree_solid : solid tree 0.
Proof.
  intros v b M. inversion M as [| | | | | |? ? fs l b' E P| | | |]; subst; try discriminate. injection E as <-. unfold tfields in P. inversion P; subst.
  match goal with M1 : means tree true 1 _ _ |- _ => inversion M1 end; subst; discriminate.
Qed.
Lemma tree_within1 u : within tree 1 u -> u = 1%nat \/ within tree 0 u.
Proof.
  intro W. induction W as [|u w W IH D]; [now left|]. right. destruct IH as [-> |IH]; [cbn in D; subst w; constructor|now apply within_part with u].
Qed.
Example C116_tail_met : WriteTail tree (after tree tes) (VDyn 1 (VSeq [tleaf; tleaf])) = Ok (tleafb ++ tleafb ++ []) /\
  exists x N, alike tree 1 x (VSeq [tleaf; tleaf]) /\ forall fuel al, (N <= fuel)%nat ->
    exists al', ReadTail (fun t => if (t =? 20)%nat then RPtr 1 else rtree t) tzero (rafter rtree tes) fuel (VDyn 20 (VRef (VSeq [tleaf]))) (at_bytes (tleafb ++ tleafb ++ []) al) = Ok (VDyn 20 (VRef x), at_bytes [] al').
Proof.
  set (R := fun t => if (t =? 20)%nat then RPtr 1 else rtree t).
  assert (W0 : forall u, rwithin R 1 u -> In u [0;1;3;5;6;7;9]%nat).
  { intros u W. induction W as [|u w W IH D]; [cbn; tauto|]. cbn in IH. unfold rcontains, R in D. repeat (destruct IH as [<-|IH]; [cbn in D; try (subst w; cbn; tauto); try contradiction|]); [|contradiction].
    destruct D as (tg & D & NS). cbn in D. repeat (destruct D as [D|D]; [injection D as <- <-; cbn; tauto || congruence|]). contradiction. }
  assert (EQ : forall u, In u [0;1;3;5;6;7;9]%nat -> rafter rtree tes u = rafter R tes u).
  { intros u I. cbn in I. repeat (destruct I as [<-|I]; [vm_compute; reflexivity|]). contradiction. }
  apply (C116_read_back_tail_partial tree (after tree tes) R tzero (rafter rtree tes) 20).
  - intros t H. exists tes. split; [|reflexivity]. unfold tleaf in H. held H. exists 0%nat. eexists. vm_compute. tauto.
  - vm_compute. repeat split; try discriminate; try (left; reflexivity); try exact Logic.I.
  - exact tree_says_tail.
  - reflexivity.
  - intros u [-> |H]; [|unfold tleaf in H; held H]. exists tes. split; [exists 0%nat; eexists; vm_compute; tauto|]. intros w W. apply EQ. now apply W0.
  - intros u W. destruct (tree_within1 u W) as [-> |W1].
    + split; [reflexivity|]. split; [intros r E; discriminate|]. cbn. split; [apply tree_open|intro Q; exact Q].
    + pose proof (tree_readable u W1) as TO. apply tree_within in W1. unfold type_ok in *. replace (R u) with (rtree u); [exact TO|]. cbn in W1. repeat (destruct W1 as [<-|W1]; [reflexivity|]). contradiction.
  - left. cbn. split; [exact tree_solid|]. intros k E. discriminate.
  - intros u W. destruct (tree_within1 u W) as [-> |W1]; [eapply sh_sl; [reflexivity|constructor]|now apply tree_zeros].
  - eapply sh_sl; [reflexivity|]. constructor; [|constructor]. eapply sh_struct; [reflexivity|]. apply shf_cons; [eapply sh_sl; [reflexivity|constructor]|]. fshape.
Qed.
(** type I struct { A int8; B interface{} }, with a *I in B *)
Definition hold (t : nat) : shape := match t with 0 => SStruct [(TgAuto, 1); (TgAuto, 2)] | 1 => SNum I8 | 2 => SIface | _ => SPtr 0 end%nat.
Definition rhold (t : nat) : rshape := match t with 0 => RStruct [(TgAuto, 1); (TgAuto, 2)] | 1 => RNum I8 | 2 => RIface | _ => RPtr 0 end%nat.
Definition hes : list ev := calls 30 0 0 ++ calls 20 1 3.
Definition hv (x y : Z) : dv := VSeq [VNum x; VDyn 3 (VRef (VSeq [VNum y; VNil]))].
Example C116_fitting_met : Write hold (after hold hes) (VDyn 0 (hv 1 2)) = Ok [1; 2] /\
  exists x N, alike hold 0 x (hv 1 2) /\ forall fuel rest al, (N <= fuel)%nat ->
    exists al', Read rhold (fun _ => VNil) (rafter rhold hes) fuel (VDyn 3 (VRef (hv 0 0))) (at_bytes ([1; 2] ++ rest) al) = Ok (VDyn 3 (VRef x), at_bytes rest al').
Proof.
  apply C116_read_back_fitting_partial.
  - intros t H. exists hes. split; [|reflexivity]. unfold hv in H. held H; [exists 0%nat|exists 1%nat]; eexists; vm_compute; tauto.
  - vm_compute. repeat split; try discriminate; try (left; reflexivity); try exact Logic.I.
  - assert (I : forall v b, means hold true 2 v b -> forall x, -128 <= x < 128 -> means hold true 0 (VSeq [VNum x; v]) (layout I8 x ++ b ++ [])).
    { intros v b M x X. apply me_struct with [(TgAuto, 1%nat); (TgAuto, 2%nat)]; [reflexivity|]. apply pa_auto; [apply (me_num hold true 1%nat I8 x); [reflexivity|cbn; lia]|]. apply pa_auto; [exact M|constructor]. }
    apply sa_value; [reflexivity|]. apply (I (VDyn 3 (VRef (VSeq [VNum 2; VNil]))) [2]); [|lia]. apply me_iface; [reflexivity|]. apply me_ptr with 0%nat; [reflexivity|].
    apply me_struct with [(TgAuto, 1%nat); (TgAuto, 2%nat)]; [reflexivity|]. apply (pa_auto hold 1 _ (VNum 2) _ [2] []); [apply (me_num hold true 1%nat I8 2); [reflexivity|cbn; lia]|]. apply (pa_auto hold 2 _ VNil _ [] []); [now apply me_niliface|constructor].
  - reflexivity.
  - reflexivity.
  - exact Logic.I.
  - intros u [-> |H]; [|unfold hv in H; held H]; exists hes; (split; [|reflexivity]); [exists 0%nat|exists 1%nat]; eexists; vm_compute; tauto.
  - assert (S : i_sz (rafter rhold hes 1) = 1 /\ i_sz (rafter rhold hes 2) = -1) by (vm_compute; tauto). revert S. generalize (rafter rhold hes). intros g (S1 & S2).
    unfold hv. cbn. rewrite S1, S2. repeat split; try discriminate.
Qed.
(** after two orders of use *)
Definition tes2 : list ev := calls 60 0 0 ++ calls 60 1 9.
Example C117_met : exists x x' N, alike tree 0 x ttip /\ alike tree 0 x' ttip /\ forall fuel rest al, (N <= fuel)%nat ->
    exists al' al'', Read rtree tzero (rafter rtree tes) fuel (VDyn 9 (VRef told)) (at_bytes (ttipb ++ rest) al) = Ok (VDyn 9 (VRef x), at_bytes rest al') /\
      Read rtree tzero (rafter rtree tes2) fuel (VDyn 9 (VRef told)) (at_bytes (ttipb ++ rest) al) = Ok (VDyn 9 (VRef x'), at_bytes rest al'').
Proof.
  apply C117_same_value_partial; [exact tree_says|reflexivity|exact tree_rfound| |exact tree_readable| |apply tree_open|intros []|exact tree_zeros|exact told_shaped].
  - intros t [-> |H]; [|unfold ttip, tleaf in H; held H]. exists tes2. split; [|reflexivity]. exists 0%nat. eexists. vm_compute. tauto.
  - apply tree_readable_at. vm_compute. tauto.
Qed.
