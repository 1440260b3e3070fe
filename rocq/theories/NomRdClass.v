(** Types that can be read back into every variable; the codecs the reader finds. *)
From Coq Require Import ZArith List Bool Arith Lia Relations.
Import ListNotations.
From Verif Require Import Base PrimModel PrimSpec PrimProofs.
From Verif Require CodecModel CodecSpec CodecProofs CodecRead.
From Verif Require Import RegModel RegSpec RegProofs FillModel FillProofs RecWeak NomModel NomSpec NomProofs NomRec NomLaySpec NomLay NomRdModel NomRdSpec NomRdProofs.
Open Scope Z_scope.

(** ** the codecs found *)
Section Found.
Variable R : nat -> rshape.
Lemma rpart_contains t u : part (rprog R) t u -> rcontains R t u.
Proof.
  unfold part, rprog, rcontains. destruct (R t); intro H; try (destruct H as [H|[]]; injection H as ->; reflexivity); try (now destruct H). now apply (field_needs false).
Qed.
Lemma rcontains_part t u : ~ In Fail (rprog R t) -> rcontains R t u -> part (rprog R) t u.
Proof.
  intros NF C. unfold rcontains in C. unfold part, rprog in *. destruct (R t); try contradiction; try (subst; now left). destruct C as (tg & F & N). now apply (fields_part false fs u tg).
Qed.
Lemma rparts_within t u : RegSpec.parts (rprog R) t u -> rwithin R t u.
Proof.
  induction 1 as [t u P|t|t u w P1 IH1 P2 IH2]; [apply rwithin_part with t; [constructor|now apply rpart_contains]|constructor|now apply rwithin_trans with u].
Qed.
Lemma rhistory_codecs es t g : rgiven R es t -> (forall u, rwithin R t u -> g u = rafter R es u) -> rcodecs R g t.
Proof.
  intros G E.
  assert (W : forall u, rwithin R t u -> RegSpec.parts (rprog R) t u).
  { intros u W. induction W as [|u w W IH C]; [apply Relation_Operators.rt_refl|]. apply Relation_Operators.rt_trans with u; [exact IH|]. apply Relation_Operators.rt_step.
    apply rcontains_part; [|exact C]. exact (proj2 (given_sound (rprog R) info (rpend R) (rfin R) i_sz (fun _ => eq_refl) es t u G IH)). }
  intros u U. destruct (given_sound (rprog R) info (rpend R) (rfin R) i_sz (fun _ => eq_refl) es t u G (W u U)) as [(is & S1 & S2) S3].
  exists is. split; [rewrite (E u U); exact S1|]. split; [|exact S3].
  assert (X : forall w, In w (needs (rprog R) u) -> g w = rafter R es w).
  { intros w I. apply E. apply rwithin_part with u; [exact U|]. apply needs_part in I. now apply rpart_contains. }
  clear - S2 X. induction S2 as [|w i us is [H|[H1 H2]] F IH]; constructor; try (apply IH; intros x I; apply X; now right).
  - left. rewrite (X w (or_introl eq_refl)). exact H.
  - right. split; [exact H1|now apply rparts_within].
Qed.
Lemma rfound_codecs g t v : rfound R g t v -> rcodecs R g t /\ rvcodecs R g v.
Proof.
  intro F. split; [destruct (F t (or_introl eq_refl)) as (es & G & E)|intros u H; destruct (F u (or_intror H)) as (es & G & E)]; now apply (rhistory_codecs es).
Qed.
End Found.

Section Class.
Variable T : nat -> shape.
Variable R : nat -> rshape.
Variable Z0 : nat -> dv.
Variable g : nat -> info.
Definition fine (u : nat) : Prop := type_ok T R g u /\ rcodec_ok R g u /\ shaped T u (Z0 u).
Definition class (t : nat) : Prop := forall u, within T t u -> fine u.
Lemma class_self t : class t -> fine t.
Proof. intro C. apply C. constructor. Qed.
Lemma class_part t u : class t -> contains T t u -> class u.
Proof. intros A C w W. apply A. apply within_trans with u; [|exact W]. apply within_part with t; [constructor|exact C]. Qed.
Lemma shape_eq t : fine t -> match T t with
  | SNum k => R t = RNum k | SStr => R t = RStr | SArr n e => R t = RArr n e | SSl e => R t = RSl e | SPtr e => R t = RPtr e | SStruct fs => R t = RStruct fs
  | SUser u => exists r, R t = RUser r /\ matches u r | SIface | SOther => False end.
Proof.
  intros [(S & U & K) _]. unfold same_shape in S. destruct (R t) eqn:E; try (rewrite S in *; try reflexivity; contradiction).
  - destruct (U u eq_refl) as (w & W & M). rewrite W. now exists u.
  - contradiction.
Qed.
Lemma rcontains_iff t u : fine t -> rcontains R t u <-> contains T t u.
Proof. intro F. apply shape_eq in F. unfold rcontains, contains. destruct (T t); try rewrite F; try tauto. destruct F as (r & -> & _). tauto. Qed.
Lemma within_rwithin t : class t -> forall u, within T t u -> rwithin R t u.
Proof. intros C u W. induction W as [|u w W IH D]; [constructor|]. apply rwithin_part with u; [exact IH|]. apply rcontains_iff; [now apply C|exact D]. Qed.
Lemma rwithin_within t : class t -> forall u, rwithin R t u -> within T t u.
Proof. intros C u W. induction W as [|u w W IH D]; [constructor|]. apply within_part with u; [exact IH|]. apply rcontains_iff; [now apply C|exact D]. Qed.
Lemma class_codecs t : class t -> rcodecs R g t.
Proof. intros C u W. apply C. now apply rwithin_within. Qed.

(** ** types of constant size *)
Lemma fixed_within t u : within T t u -> forall z, fixed T t z -> exists y, fixed T u y.
Proof. induction 1 as [|u w W IH C]; intros z F; [now exists z|]. destruct (IH z F) as [y Y]. now apply (fixed_part T u y). Qed.
Lemma fixed_sizes t z : fixed T t z -> class t -> sizes T g t.
Proof.
  intros F C u W. destruct (fixed_within t u W z F) as [y Y]. pose proof (C u W) as FU. destruct FU as (TO & (is & G & M & NF) & SH). pose proof (shape_eq u (C u W)) as SE.
  assert (CU : class u) by (intros w X; apply C; now apply within_trans with u).
  exists is. assert (PE : prog T u = rprog R u) by (unfold prog, rprog; inversion Y as [? k E|? n e z' E F'|? fs z' E F']; subst; rewrite E in *; now rewrite SE).
  split; [|split; [|now rewrite PE]].
  - rewrite G. unfold fin, rfin. inversion Y as [? k E|? n e z' E F'|? fs z' E F']; subst; rewrite E in *; now rewrite SE.
  - unfold needs in *. rewrite PE. assert (X : forall w, In w (flat_map (fun i => match i with Need u => [u] | Fail => [] end) (rprog R u)) -> class w).
    { intros w I. apply (class_part u); [exact CU|]. apply rcontains_iff; [now apply C|]. apply rpart_contains. now apply needs_part. }
    clear - M X. induction M as [|w i us is H M IH]; constructor.
    + destruct H as [H|[H1 H2]]; [now left|right]. split; [exact H1|]. apply rwithin_within; [|exact H2]. apply X. now left.
    + apply IH. intros w' I. apply X. now right.
Qed.
Lemma class_fixed t z : fixed T t z -> class t -> i_sz (g t) = z.
Proof. intros F C. apply (codec_fixed T g t z F). now apply (fixed_sizes t z). Qed.
Lemma fixed_closed t z : fixed T t z -> ~ open T t.
Proof.
  intros F O. revert z F. induction O as [t fs e E I M|t fs e E I O IH]; intros z F.
  - inversion F as [? k E'|? n x y E' F'|? fs' y E' F']; subst; try congruence. rewrite E in E'. injection E' as <-. clear - F' I. induction F'; [destruct I|..]; (destruct I as [I|I]; [discriminate|auto]).
  - inversion F as [? k E'|? n x y E' F'|? fs' y E' F']; subst; try congruence. rewrite E in E'. injection E' as <-. clear - F' I. induction F'; [destruct I|..]; (destruct I as [I|I]; [discriminate|auto]).
Qed.
Lemma pre_pos p n : 0 <= n -> pfits p n -> 1 <= zlen (pre p n).
Proof. intros N F. rewrite CodecProofs.pre_len_ok. apply CodecRead.pre_len_pos. unfold CodecSpec.pfits in F. destruct p; lia. Qed.
Lemma fixeds_nn fs z : fixeds T fs z -> 0 <= z.
Proof.
  intro F. apply (fixeds_ind2 T (fun t z => 0 <= z) (fun fs z => 0 <= z)) with (l := fs); try exact F; intros; try lia; try nia;
  match goal with |- context[zlen ?x] => pose proof (CodecProofs.zlen_nn x) end; lia.
Qed.
(** a type of size 0 has one value *)
Lemma zero_alike : (forall t z, fixed T t z -> z = 0 -> forall a v b o, means T a t v b -> shaped T t o -> alike T t o v) /\
  (forall fs z, fixeds T fs z -> z = 0 -> forall vs b os, parts T fs vs b -> shape_fields T fs os -> alike_fields T fs os vs).
Proof.
  apply (fixed_both T (fun t z => z = 0 -> forall a v b o, means T a t v b -> shaped T t o -> alike T t o v) (fun fs z => z = 0 -> forall vs b os, parts T fs vs b -> shape_fields T fs os -> alike_fields T fs os vs)).
  - intros t k E Z. destruct k; discriminate.
  - intros t n e z E F IH Z a v b o M S. inversion M as [| |? ? ? ? l ? E2 L I| | | | | | | |]; subst; try congruence. rewrite E in E2. injection E2 as -> <-.
    inversion S as [| |? ? ? m E3 L3 S3| | | | |]; subst; try congruence. rewrite E in E3. injection E3 as Q <-. apply ak_arr with (length l) e; [exact E|].
    assert (Q2 : length m = length l) by congruence. destruct l as [|x l]; [destruct m; [constructor|discriminate]|]. assert (z = 0) by (cbn [length] in Z; lia). subst z. clear - IH I S3 Q2. specialize (IH eq_refl).
    revert m S3 Q2. remember (x :: l) as l'. clear Heql' x l. induction I as [e|e v l a b M I IHI]; intros [|y m] S3 Q2; try discriminate; [constructor|]. inversion S3; subst. constructor; [now apply (IH true v a)|]. apply IHI; trivial. now injection Q2.
  - intros t fs z E F IH Z a v b o M S. inversion M; subst; try congruence. inversion S; subst; try congruence.
    repeat match goal with H : T t = SStruct _ |- _ => rewrite E in H; injection H as <- end. apply ak_struct with fs; [exact E|]. now apply (IH eq_refl vs b).
  - intros Z vs b os P S. inversion P; subst. inversion S; subst. constructor.
  - intros e fs z F IH Z vs b os P S. inversion P; subst. inversion S; subst; apply af_skip; now apply (IH eq_refl vs0 b).
  - intros e fs y z F IH1 G IH2 Z vs b os P S. pose proof (fixed_nn T e y F). pose proof (fixeds_nn fs z G). inversion P; subst. inversion S; subst. apply af_cons; [apply (IH1 ltac:(lia) true v a); trivial|apply (IH2 ltac:(lia) vs0 b0); trivial].
  - intros p e fs y z F IH1 B G IH2 Z vs b os P S. exfalso. pose proof (fixed_nn T e y F). pose proof (fixeds_nn fs z G). inversion P; subst.
    match goal with M : means T false e v ?a, Q : pfits p (zlen ?a) |- _ => pose proof (fixed_bytes T e y false v a F M) as L; rewrite L in Q; pose proof (pre_pos p y ltac:(lia) Q); lia end.
  - intros p e fs n y z F IH1 C NP B G IH2 Z vs b os P S. exfalso. pose proof (fixed_nn T e y F). pose proof (fixeds_nn fs z G). inversion P; subst.
    match goal with A : amount T e v ?m, Q : pfits p ?m |- _ => rewrite (const_amount T e n v m C A) in Q; pose proof (const_nn T e n C); pose proof (pre_pos p n ltac:(lia) Q); lia end.
Qed.
Lemma zero_one a t v b o : fixed T t 0 -> means T a t v b -> shaped T t o -> alike T t o v.
Proof. intros F. exact (proj1 zero_alike t 0 F eq_refl a v b o). Qed.

(** ** every variable is ready *)
Definition fits (t : nat) (v old : dv) : Prop :=
  match T t with
  | SSl _ => length (seq old) = length (seq v)
  | SPtr _ => match v, old with VNil, VNil => True | VRef _, VRef _ => True | _, _ => False end
  | SNum _ | SArr _ _ | SStruct _ | SUser _ => True
  | _ => False
  end.
Definition Cm (a : bool) (t : nat) (v : dv) (b : list Z) : Prop := forall m old, class t -> shaped T t old ->
  match m with CodecModel.Auto => a = true /\ ~ open T t /\ ~ is_ptr T t | CodecModel.Tail => a = false /\ tails T t | CodecModel.Fixed => a = false /\ ~ open T t /\ fits t v old end ->
  ready T R g Z0 m true a t v old.
Definition Ci (e : nat) (l : list dv) (b : list Z) : Prop := forall os, class e -> shapes T e os -> ~ open T e -> ~ is_ptr T e -> length os = length l ->
  all2 (fun x y => ready T R g Z0 Auto true true e x y) l os.
Definition Cp (fs : list (tag * nat)) (vs : list dv) (b : list Z) : Prop := forall m os, (forall tg e, In (tg, e) fs -> tg <> TgSkip -> class e) -> Forall (field_ok T g) fs -> shape_fields T fs os ->
  (m = Tail \/ forall e, In (TgNo, e) fs -> ~ open T e /\ match T e with SStr | SSl _ => False | _ => True end) -> rflds T R Z0 g m true fs vs os.
Lemma shapes_repeat e n : shaped T e (Z0 e) -> shapes T e (repeat (Z0 e) n).
Proof. intro S. induction n; constructor; trivial. Qed.
Lemma resliced_ok e o n : shaped T e (Z0 e) -> shapes T e o -> shapes T e (resliced Z0 e o n) /\ length (resliced Z0 e o n) = n.
Proof. intros S O. unfold resliced. destruct (Nat.eqb_spec (length o) n); [now split|]. split; [now apply shapes_repeat|apply repeat_length]. Qed.
Lemma padded_ok e n : forall o, shaped T e (Z0 e) -> shapes T e o -> shapes T e (padded (Z0 e) n o) /\ length (padded (Z0 e) n o) = n.
Proof.
  induction n as [|n IH]; intros o S O; [split; [constructor|reflexivity]|]. cbn [padded length]. destruct (IH (tl o) S) as [A B]; [destruct O; [constructor|assumption]|]. split; [|now rewrite B]. constructor; [destruct O; assumption|exact A].
Qed.
Lemma user_all a t u r v b m old : T t = SUser u -> R t = RUser r -> matches u r -> means T a t v b ->
  match m with CodecModel.Auto => a = true | _ => a = false end -> ready T R g Z0 m true a t v old.
Proof.
  intros E ER (K1 & K2 & RD & TL & SS & CN) M Q. 
  assert (W : forall b', means T a t v b' -> a && (if u_count u then true else false) = false -> u_write u v = Ok b').
  { intros b' M' N. inversion M' as [| | | | | | | | |? ? u' ? ? E' N' W'|? u' ? n b2 E' UC W' AM L]; subst; try congruence. rewrite E in E'. injection E' as <-. destruct (u_count u); [discriminate|congruence]. }
  assert (X : same_shape (T t) (R t) /\ rno_addr r true = false /\
      match m with
      | CodecModel.Fixed => undone T a false (ru_read r) t v old
      | CodecModel.Auto =>
          match cntset r with
          | Some f => ru_kind r = KOther /\ a = true /\ (exists u, T t = SUser u /\ u_count u <> None) /\
                      forall n, amount T t v n -> exists x, f old n = Ok (x, true) /\ undone T false false (ru_read r) t v x
          | None => undone T a false (ru_read r) t v old
          end
      | CodecModel.Tail => match ru_tail r with Some f => undone T a true f t v old | None => undone T a true (ru_read r) t v old end
      end).
  { rewrite ER. split; [exact Logic.I|]. split; [unfold rno_addr; now destruct (ru_ptr r)|]. destruct m; subst a.
    - intros b' rest al M' LT. apply RD; [apply W; trivial|discriminate].
    - destruct (cntset r) as [f|] eqn:CS; destruct (u_count u) as [c|] eqn:UC; try contradiction.
      + split; [exact K2|]. split; [reflexivity|]. split; [exists u; split; [exact E|congruence]|]. intros n AM. destruct (CN old n) as [x F]. exists x. split; [exact F|]. intros b' rest al M' _. apply RD; [|discriminate].
        now apply (NomLay.user_means T t u).
      + intros b' rest al M' LT. apply RD; [apply W; trivial|discriminate].
    - destruct (ru_tail r) as [f|]; intros b' rest al M' LT.
      + apply TL; [apply W; trivial|exact LT].
      + apply RD; [apply W; trivial|discriminate]. }
  destruct v; cbn [ready]; rewrite ER in *; exact X.
Qed.
(** the slices the reader can size *)
Lemma slice_sz t e : class t -> T t = SSl e -> i_sz (g e) <> 0 -> i_sz (g t) < 0 /\ (i_get (g t) = true -> 0 < i_sz (g e)) /\ (i_get (g t) = false -> forall k, R e <> RNum k).
Proof.
  intros C E NZ. destruct (class_self t C) as (_ & (is & G & M & _) & _). pose proof (shape_eq t (class_self t C)) as ER. rewrite E in ER. unfold needs, rprog, rfin in *. rewrite ER in *. cbn in M.
  inversion M as [|u i us is' NR M']; subst. rewrite G. cbn [i_sz i_get].
  assert (ZE : i_sz i <> 0) by (destruct NR as [-> |[NR _]]; [exact NZ|lia]). destruct (Z.eqb_spec (i_sz i) 0); [contradiction|]. split; [lia|]. split.
  - intro L. apply Z.ltb_lt in L. destruct NR as [-> |[NR _]]; lia.
  - intros L k EK. assert (CE : class e) by (apply (class_part t); [exact C|unfold contains; now rewrite E]). destruct (class_self e CE) as (_ & (js & GE & _) & _). unfold rfin in GE. rewrite EK in GE.
    destruct NR as [-> |[_ W]]; [rewrite GE in L; destruct k; discriminate|]. assert (Q : e = t).
    { clear - W EK. induction W as [|x y W IH D]; [reflexivity|]. subst x. unfold rcontains in D. now rewrite EK in D. }
    subst. congruence.
Qed.
Lemma user_sz t r : class t -> R t = RUser r -> i_sz (g t) = -1 /\ i_cnt (g t) = -1 /\ i_get (g t) = match ru_ssize r with Some _ => true | None => false end.
Proof. intros C E. destruct (class_self t C) as (_ & (is & G & _) & _). unfold rfin in G. rewrite E in G. rewrite G. now repeat split. Qed.
Lemma get_plain t : class t -> match T t with SNum _ | SArr _ _ | SStruct _ => i_get (g t) = false | _ => True end.
Proof.
  intro C. destruct (class_self t C) as (_ & (is & G & _) & _). pose proof (shape_eq t (class_self t C)) as ER. unfold rfin in G. rewrite G. destruct (T t); try exact Logic.I; rewrite ER; try reflexivity. now destruct (scan fs is 0).
Qed.
Lemma flat_plain t : class t -> match T t with SPtr _ => True | _ => flat R t end.
Proof. intro C. pose proof (shape_eq t (class_self t C)) as ER. unfold flat. destruct (T t); try exact Logic.I; try (now rewrite ER); try contradiction. destruct ER as (r & -> & M). apply M. Qed.
Lemma is_text_T t : class t -> is_text R t = match T t with SStr => true | SSl e => match T e with SNum U8 => true | _ => false end | _ => false end.
Proof.
  intro C. pose proof (shape_eq t (class_self t C)) as ER. unfold is_text. destruct (T t) eqn:E; try (now rewrite ER); try contradiction.
  - rewrite ER. assert (CE : class t0) by (apply (class_part t); [exact C|unfold contains; now rewrite E]). pose proof (shape_eq t0 (class_self t0 CE)) as EE. destruct (T t0); try (now rewrite EE); try contradiction. destruct EE as (r & -> & _). reflexivity.
  - destruct ER as (r & -> & _). reflexivity.
Qed.
Lemma text_ready t v b o : class t -> is_text R t = true -> means T false t v b -> shaped T t o -> text_ok T R true t v o.
Proof.
  intros C TX M S. rewrite (is_text_T t C) in TX. pose proof (shape_eq t (class_self t C)) as ER. unfold text_ok. destruct (T t) as [| | |e| | | | |] eqn:E; try discriminate; rewrite ER; [now split|].
  split; [reflexivity|]. split; [destruct (T e) as [k| | | | | | | |]; try discriminate; now destruct k|]. inversion M; subst; try congruence. inversion S; subst; try congruence. now left.
Qed.

(** size() and cnt() prepare every variable *)
Definition Fx (t : nat) (v : dv) : Prop := forall old m, shaped T t old -> match m with CodecModel.Auto => False | CodecModel.Tail => tails T t | CodecModel.Fixed => ~ open T t /\ fits t v old end -> ready T R g Z0 m true false t v old.
Lemma size_ready t v b o : class t -> field_ok T g (TgSize P32, t) -> is_text R t = false -> means T false t v b -> shaped T t o -> Fx t v ->
  exists x y, resize R g Z0 true t o (zlen b) x y /\ ready T R g Z0 (if y : bool then Fixed else Tail) true false t v x.
Proof.
  intros C FO TX M S H. destruct FO as [_ FO]. cbn [snd] in FO. pose proof (shape_eq t (class_self t C)) as ER. pose proof (is_text_T t C) as TT. pose proof (get_plain t C) as GP. pose proof (flat_plain t C) as FP.
  assert (PL : match T t with SNum _ | SArr _ _ | SStruct _ => True | _ => False end -> exists x y, resize R g Z0 true t o (zlen b) x y /\ ready T R g Z0 (if y : bool then Fixed else Tail) true false t v x).
  { intro P. assert (SK : size_kept T g t) by (destruct (T t); try contradiction; exact FO). assert (FL : flat R t) by (destruct (T t); try contradiction; exact FP). assert (GF : i_get (g t) = false) by (destruct (T t); try contradiction; exact GP).
    assert (FT : fits t v o) by (unfold fits; now destruct (T t)). assert (TL : tails T t) by (unfold tails; now destruct (T t)). clear FO FP GP ER TT P.
    destruct (Z.ltb_spec (i_sz (g t)) 0) as [L|L].
    - exists o, false. split; [now apply rz_none|]. now apply H.
    - destruct SK as [SK|SK]; [lia|]. exists o, true. split; [apply rz_kept; [exact FL|apply CodecProofs.zlen_nn|symmetry; now apply (fixed_bytes T t _ false v)]|]. apply H; [exact S|]. split; [now apply (fixed_closed t (i_sz (g t)))|exact FT]. }
  destruct (T t) as [k| |n e|e|e|fs| |u|] eqn:E; try (apply PL; exact Logic.I); try contradiction.
  - congruence.
  - (* slices *) destruct FO as (SO & SK & NZ). destruct (slice_sz t e C E NZ) as (SZ & G1 & G2). inversion M as [| | |? ? e' l b' E2 L2 I2| | | | | | |]; subst; try congruence. rewrite E in E2. injection E2 as <-. inversion S as [| | |? ? os E3 S3| | | |]; subst; try congruence. rewrite E in E3. injection E3 as <-.
    cbn [count4 app]. assert (CE : class e) by (apply (class_part t); [exact C|unfold contains; now rewrite E]).
    destruct (i_get (g t)) eqn:G.
    + pose proof (G1 eq_refl) as G1'. destruct SK as [SK|SK]; [lia|]. pose proof (fixed_items T e _ l b' SK I2) as FI. destruct (resliced_ok e os (length l) (proj2 (proj2 (class_self e CE))) S3) as [R1 R2].
      exists (VSeq (resliced Z0 e os (length l))), true. split; [apply rz_slice; trivial; now left|]. apply H; [now apply sh_sl with e|]. split; [|unfold fits; rewrite E; exact R2]. intro O. inversion O; congruence.
    + exists (VSeq os), false. split; [apply rz_none; trivial|]. apply H; [exact S|]. unfold tails. rewrite E. split; [exact SO|]. intros k EK. destruct (G2 eq_refl k). pose proof (shape_eq e (class_self e CE)) as EE. now rewrite EK in EE.
  - (* pointers *) destruct FO as (z & ZP & FX). assert (CE : class e) by (apply (class_part t); [exact C|unfold contains; now rewrite E]). pose proof (class_fixed e z FX CE) as SZ.
    assert (FE : flat R e). { pose proof (flat_plain e CE) as F. inversion FX as [? k E'|? n x y E' F'|? fs y E' F']; subst; now rewrite E' in F. }
    assert (NO : ~ open T t) by (intro O; inversion O; congruence).
    inversion M as [| | | |? ? e' w b' E2 M2|? e' E2| | | | |]; subst; try congruence.
    + rewrite E in E2. injection E2 as <-. pose proof (fixed_bytes T e _ false w b FX M2) as LB. inversion S as [| | | |? e' E3|? e' o' E3 S3| |]; subst; try congruence; rewrite E in E3; injection E3 as <-.
      * exists (VRef (Z0 e)), true. split; [apply rz_new with e; trivial; [lia|]; apply rz_kept; trivial; lia|]. apply H; [apply sh_ptr with e; trivial; apply (class_self e CE)|]. split; [exact NO|]. unfold fits. now rewrite E.
      * exists (VRef o'), true. split; [apply rz_ref with e; trivial; [lia|]; apply rz_kept; trivial; lia|]. apply H; [now apply sh_ptr with e|]. split; [exact NO|]. unfold fits. now rewrite E.
    + exists VNil, true. split; [|apply H; [now apply sh_nil with e|split; [exact NO|unfold fits; now rewrite E]]]. inversion S; subst; try congruence; [now apply rz_nil with e|now apply rz_clear with e].
  - (* users *) destruct ER as (r & ER & MA). destruct (user_sz t r C ER) as (U1 & U2 & U3). destruct MA as (K1 & K2 & RD & TL & SS & CN). assert (NO : ~ open T t) by (intro O; inversion O; congruence).
    assert (X : forall x (y : bool), ready T R g Z0 (if y then Fixed else Tail) true false t v x).
    { intros x y. apply H; [now apply sh_user with u|]. destruct y; [split; [exact NO|]; unfold fits; now rewrite E|unfold tails; now rewrite E]. }
    destruct (ru_ssize r) as [f|] eqn:SE.
    + destruct (SS o (zlen b)) as (x & y & F & NE). destruct y; try congruence.
      * exists x, true. split; [apply rz_user with r f; trivial; [unfold rno_addr; now destruct (ru_ptr r)|lia]|apply (X x true)].
      * exists x, false. split; [apply rz_user with r f; trivial; [unfold rno_addr; now destruct (ru_ptr r)|lia]|apply (X x false)].
    + exists o, false. split; [apply rz_none; trivial; lia|apply (X o false)].
Qed.
Lemma count_ready t v b o n : class t -> ~ open T t -> is_text R t = false -> means T false t v b -> amount T t v n -> shaped T t o -> Fx t v ->
  exists x, recount R g Z0 true t o n x /\ ready T R g Z0 Fixed true false t v x.
Proof.
  intros C NO TX M AM S H. pose proof (shape_eq t (class_self t C)) as ER. pose proof (is_text_T t C) as TT. pose proof (flat_plain t C) as FP. pose proof (rcnt_of R g t (proj1 (proj2 (class_self t C)))) as RC. pose proof (amount_nn T t v n AM) as NN.
  destruct (T t) as [k| |m e|e|e|fs| |u|] eqn:E; try contradiction.
  - exists o. assert (n = 1) by (inversion AM; subst; congruence). subst n. split; [apply rc_const; trivial; now rewrite RC, ER|]. apply H; [exact S|]. split; [exact NO|unfold fits; now rewrite E].
  - congruence.
  - exists o. assert (n = Z.of_nat m) by (inversion AM; subst; congruence). subst n. split; [apply rc_const; trivial; now rewrite RC, ER|]. apply H; [exact S|]. split; [exact NO|unfold fits; now rewrite E].
  - assert (CE : class e) by (apply (class_part t); [exact C|unfold contains; now rewrite E]). inversion M as [| | |? ? e' l b' E2 L2 I2| | | | | | |]; subst; try congruence. rewrite E in E2. injection E2 as <-. inversion S as [| | |? ? os E3 S3| | | |]; subst; try congruence. rewrite E in E3. injection E3 as <-.
    assert (n = zlen l) by (inversion AM; subst; congruence). subst n. destruct (resliced_ok e os (length l) (proj2 (proj2 (class_self e CE))) S3) as [R1 R2].
    exists (VSeq (resliced Z0 e os (length l))). split; [apply rc_slice; trivial; [rewrite RC, ER; lia|now left]|]. apply H; [now apply sh_sl with e|]. split; [exact NO|]. unfold fits. rewrite E. exact R2.
  - destruct (class_self t C) as ((_ & _ & TO) & _). rewrite E in TO. destruct TO as [OE TO]. assert (CE : class e) by (apply (class_part t); [exact C|unfold contains; now rewrite E]).
    assert (FE : flat R e) by (pose proof (flat_plain e CE) as F; destruct (T e); try contradiction; exact F).
    pose proof (rcnt_of R g e (proj1 (proj2 (class_self e CE)))) as RE. pose proof (shape_eq e (class_self e CE)) as EE.
    inversion M as [| | | |? ? e' w b' E2 M2|? e' E2| | | | |]; subst; try congruence.
    + rewrite E in E2. injection E2 as <-. inversion AM as [| | | | | |? e' ? ? E4 A4| | | | |]; subst; try congruence. rewrite E in E4. injection E4 as <-.
      assert (Q : i_cnt (g e) = n /\ n <> 0). { rewrite RE. destruct (T e) as [k| |m x|x|x|fs| |u|] eqn:Te; try contradiction; rewrite EE; inversion A4; subst; try congruence; split; try congruence; try lia. rewrite Te in *. match goal with H : SArr _ _ = SArr _ _ |- _ => injection H as <- <- end. lia. }
      destruct Q as [Q1 Q2]. inversion S as [| | | |? e' E3|? e' o' E3 S3| |]; subst; try congruence; rewrite E in E3; injection E3 as <-.
      * exists (VRef (Z0 e)). split; [apply rc_new with e; trivial; now apply rc_const|]. apply H; [apply sh_ptr with e; trivial; apply (class_self e CE)|]. split; [exact NO|]. unfold fits. now rewrite E.
      * exists (VRef o'). split; [apply rc_ref with e; trivial; [now left|]; now apply rc_const|]. apply H; [now apply sh_ptr with e|]. split; [exact NO|]. unfold fits. now rewrite E.
    + assert (n = 0) by (inversion AM; subst; congruence). subst n. exists VNil. split; [|apply H; [now apply sh_nil with e|split; [exact NO|unfold fits; now rewrite E]]]. inversion S; subst; try congruence; [now apply rc_nil with e|now apply rc_clear with e].
  - exists o. assert (n = 1) by (inversion AM; subst; congruence). subst n. split; [apply rc_const; trivial; now rewrite RC, ER|]. apply H; [exact S|]. split; [exact NO|unfold fits; now rewrite E].
  - destruct ER as (r & ER & MA). destruct (user_sz t r C ER) as (U1 & U2 & U3). destruct MA as (K1 & K2 & RD & TL & SS & CN).
    assert (UC : u_count u <> None) by (inversion AM as [| | | | | | | | |? u' f ? E' K' UC P|? u' E' K'|? u' t' w m E' K' A']; subst; try congruence; rewrite E in E'; injection E' as <-; congruence).
    destruct (u_count u); [|congruence]. destruct (cntset r) as [f|] eqn:CS; [|contradiction]. destruct (CN o n) as [x F]. exists x. split; [apply rc_user with r f; trivial; [lia|unfold rno_addr; now destruct (ru_ptr r)]|].
    apply H; [now apply sh_user with u|]. split; [exact NO|unfold fits; now rewrite E].
Qed.

Lemma Cm_Fx t v b : class t -> Cm false t v b -> Fx t v.
Proof. intros C H old m S Q. apply H; trivial. destruct m; [now split|contradiction|now split]. Qed.
Theorem class_ready : (forall a t v b, means T a t v b -> Cm a t v b) /\ (forall e l b, items T e l b -> Ci e l b) /\ (forall fs vs b, parts T fs vs b -> Cp fs vs b).
Proof.
  apply (means_all T Cm Ci Cp).
  - intros a t k x E K m old C S Q. pose proof (shape_eq t (class_self t C)) as ER. rewrite E in ER. cbn [ready]. rewrite ER, E. now split.
  - intros a t l E L m old C S Q. pose proof (shape_eq t (class_self t C)) as ER. rewrite E in ER. cbn [ready]. rewrite ER, E. split; [reflexivity|]. split; [reflexivity|]. destruct m; try tauto. unfold fits in Q. rewrite E in Q. tauto.
  - intros a t n e l b E L I IH m old C S Q. pose proof (shape_eq t (class_self t C)) as ER. rewrite E in ER. cbn [ready]. rewrite ER, E. split; [reflexivity|]. inversion S as [| |? n' ? os E3 L3 S3| | | | |]; subst; try congruence. rewrite E in E3. injection E3 as L4 <-.
    destruct (class_self t C) as ((_ & _ & TO) & _). rewrite E in TO. destruct TO as [T1 T2]. apply IH; trivial; [|now symmetry]. apply (class_part t); [exact C|unfold contains; now rewrite E].
  - intros a t e l b E L I IH m old C S Q. pose proof (shape_eq t (class_self t C)) as ER. rewrite E in ER. cbn [ready]. rewrite ER, E. split; [reflexivity|]. inversion S as [| | |? ? os E3 S3| | | |]; subst; try congruence. rewrite E in E3. injection E3 as <-.
    destruct (class_self t C) as ((_ & _ & TO) & _). rewrite E in TO. destruct TO as [T1 T2]. assert (CE : class e) by (apply (class_part t); [exact C|unfold contains; now rewrite E]). pose proof (proj2 (proj2 (class_self e CE))) as ZE. destruct m.
    + destruct Q as (-> & _ & Q). split; [reflexivity|]. unfold fits in Q. rewrite E in Q. now apply IH.
    + destruct Q as (-> & _). split; [reflexivity|]. split; [now left|]. destruct (resliced_ok e os (length l) ZE S3). now apply IH.
    + destruct Q as (-> & Q). split; [reflexivity|]. unfold tails in Q. rewrite E in Q. destruct Q as [SO NM]. split; [|split].
      * intros k EK. pose proof (shape_eq e (class_self e CE)) as EE. destruct (T e) as [k'| | | | | | |u|] eqn:Te; try congruence; try contradiction; [|destruct EE as (r & EE & _); congruence]. assert (k' = k) by congruence. subst k'. rewrite (NM k eq_refl). now split.
      * intros x b' _. apply SO.
      * destruct (padded_ok e (length l) os ZE S3). now apply IH.
  - intros a t e w b E M IH m old C S Q. pose proof (shape_eq t (class_self t C)) as ER. rewrite E in ER. cbn [ready]. rewrite ER, E. split; [reflexivity|]. destruct m.
    + destruct Q as (-> & NO & Q). unfold fits in Q. rewrite E in Q. destruct old as [| | | |o|]; try contradiction. inversion S as [| | | | |? ? o' E3 S3| |]; subst; try congruence. rewrite E in E3. injection E3 as <-.
      split; [discriminate|]. destruct (class_self t C) as ((_ & _ & TO) & _). rewrite E in TO. destruct TO as [T1 T2]. apply IH; trivial; [apply (class_part t); [exact C|unfold contains; now rewrite E]|]. split; [reflexivity|]. split; [exact T1|]. unfold fits. now destruct (T e).
    + destruct Q as (_ & _ & Q). destruct Q. unfold is_ptr. now rewrite E.
    + destruct Q as (_ & Q). unfold tails in Q. now rewrite E in Q.
  - intros t e E m old C S Q. pose proof (shape_eq t (class_self t C)) as ER. rewrite E in ER. cbn [ready]. rewrite ER, E. split; [reflexivity|]. destruct m.
    + destruct Q as (_ & _ & Q). unfold fits in Q. rewrite E in Q. now destruct old.
    + destruct Q as (_ & _ & Q). destruct Q. unfold is_ptr. now rewrite E.
    + destruct Q as (_ & Q). unfold tails in Q. now rewrite E in Q.
  - intros a t fs vs b E P IH m old C S Q. pose proof (shape_eq t (class_self t C)) as ER. rewrite E in ER. cbn [ready]. rewrite ER, E. split; [reflexivity|]. inversion S as [| | | | | |? ? os E3 S3|]; subst; try congruence. rewrite E in E3. injection E3 as <-.
    destruct (class_self t C) as ((_ & _ & TO) & _). rewrite E in TO. change (rflds T R Z0 g m true fs vs os). apply IH; trivial.
    + intros tg e I N. apply (class_part t); [exact C|]. unfold contains. rewrite E. now exists tg.
    + destruct m; [right|right|now left]; (destruct Q as (_ & NO & _); intros e I; split; [intro O; apply NO; now apply op_part with fs e|]; destruct (T e) eqn:Te; try exact Logic.I; apply NO; apply op_struct with fs e; trivial; now rewrite Te).
  - intros a t E m old C S Q. pose proof (shape_eq t (class_self t C)) as ER. now rewrite E in ER.
  - intros a t u w b E M IH m old C S Q. pose proof (shape_eq t (class_self t C)) as ER. now rewrite E in ER.
  - intros a t u v b E UC W m old C S Q. pose proof (shape_eq t (class_self t C)) as ER. rewrite E in ER. destruct ER as (r & ER & MA). apply (user_all a t u r v b); trivial; [now apply me_user with u|]. destruct m; tauto.
  - intros t u v n b E UC W AM L m old C S Q. pose proof (shape_eq t (class_self t C)) as ER. rewrite E in ER. destruct ER as (r & ER & MA). apply (user_all true t u r v (le_enc 4 n ++ b)); trivial; [now apply me_counted with u|]. destruct m; tauto.
  - intros e [|o os] C S N1 N2 L; [exact Logic.I|discriminate].
  - intros e v l a b M IHm I IHi [|o os] C S N1 N2 L; [discriminate|]. inversion S; subst. cbn [all2]. split; [apply IHm; trivial; now repeat split|]. apply IHi; trivial. now injection L.
  - intros m os C F S Q. inversion S; subst. exact Logic.I.
  - intros e fs v vs b P IH m os C F S Q. apply Forall_cons_iff in F. destruct F as [_ F].
    assert (X : forall o os', shape_fields T fs os' -> rflds T R Z0 g m true ((TgSkip, e) :: fs) (v :: vs) (o :: os')).
    { intros o os' S'. cbn [rflds]. split; [exact Logic.I|]. apply IH; trivial; [intros tg x J; apply (C tg x); now right|]. destruct Q as [Q|Q]; [now left|right]. intros x J. apply Q. now right. }
    inversion S; subst; now apply X.
  - intros e fs v vs a b M IHm P IH m os C F S Q. apply Forall_cons_iff in F. destruct F as [FO F]. inversion S; subst. cbn [rflds]. assert (CE : class e) by (apply (C TgAuto); [now left|discriminate]). destruct FO as (F1 & F2 & F3). cbn [snd] in *. split.
    + split; [|apply IHm; trivial; now repeat split]. intro Z. split; [now apply F1|]. apply (zero_one true e v a); trivial. now apply F1.
    + apply IH; trivial; [intros tg x J; apply (C tg x); now right|]. destruct Q as [Q|Q]; [now left|right]. intros x J. apply Q. now right.
  - intros p e fs v vs a b M IHm PF P IH m os C F S Q. apply Forall_cons_iff in F. destruct F as [FO F]. inversion S; subst. cbn [rflds]. assert (CE : class e) by (apply (C (TgSize p)); [now left|discriminate]). split.
    + split; [apply FO|]. destruct (is_text R e) eqn:TX; [now apply (text_ready e v a)|]. intros b' M'. apply size_ready; trivial; [split; [discriminate|apply FO]|now apply (Cm_Fx e v a)].
    + apply IH; trivial; [intros tg x J; apply (C tg x); now right|]. destruct Q as [Q|Q]; [now left|right]. intros x J. apply Q. now right.
  - intros p e fs v vs n a b M IHm AM PF P IH m os C F S Q. apply Forall_cons_iff in F. destruct F as [FO F]. inversion S; subst. cbn [rflds]. assert (CE : class e) by (apply (C (TgCnt p)); [now left|discriminate]). split.
    + split; [apply FO|]. destruct (is_text R e) eqn:TX; [now apply (text_ready e v a)|]. intros n' AM'. apply (count_ready e v a); trivial; [apply FO|now apply (Cm_Fx e v a)].
    + apply IH; trivial; [intros tg x J; apply (C tg x); now right|]. destruct Q as [Q|Q]; [now left|right]. intros x J. apply Q. now right.
  - intros e fs v vs a b M IHm P IH m os C F S Q. apply Forall_cons_iff in F. destruct F as [FO F]. inversion S; subst. cbn [rflds]. assert (CE : class e) by (apply (C TgNo); [now left|discriminate]). destruct FO as (F1 & F2). cbn [snd] in *. split.
    + split; [intro Z; split; [now apply F1|]; apply (zero_one false e v a); trivial; now apply F1|]. 
      assert (X : m <> Tail -> ready T R g Z0 Fixed true false e v v0).
      { intro NT. destruct Q as [Q|Q]; [contradiction|]. destruct (Q e (or_introl eq_refl)) as [Q1 Q2]. apply IHm; trivial. split; [reflexivity|]. split; [exact Q1|]. pose proof (shape_eq e (class_self e CE)) as EE. unfold fits, tails in *. destruct (T e); trivial; contradiction. }
      destruct m; [apply X; discriminate|apply X; discriminate|]. apply IHm; trivial. now split.
    + apply IH; trivial; [intros tg x J; apply (C tg x); now right|]. destruct Q as [Q|Q]; [now left|right]. intros x J. apply Q. now right.
Qed.
End Class.
