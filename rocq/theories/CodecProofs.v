(** Proofs about the reflective codec: writing. *)
From Coq Require Import ZArith List Bool Arith Lia.
Import ListNotations.
From Verif Require Import Base PrimModel PrimSpec PrimProofs PrimWriter PrimProps CodecModel CodecSpec.
Open Scope Z_scope.

Scheme ty_mut := Induction for ty Sort Prop with flds_mut := Induction for flds Sort Prop.
Combined Scheme ty_flds_ind from ty_mut, flds_mut.

Ltac bools := repeat match goal with
  | H : _ && _ = true |- _ => apply andb_prop in H; destruct H
  | H : negb _ = true |- _ => apply negb_true_iff in H
  end.

(** ** Primitive bytes *)
Lemma put_stores_eq st : forall a, put_stores a st = apply_stores a st.
Proof. induction st as [|[p b] st IH]; intro a; cbn; [reflexivity|apply IH]. Qed.
Lemma put_ok c : call_ok c -> put c = appended c.
Proof.
  intro H. unfold put. pose proof (call_stores_exact c (repeat 0 (fst (call_stores c))) H (repeat_length _ _)) as E.
  destruct (call_stores c) as [n st]. cbn [fst snd] in E. now rewrite put_stores_eq.
Qed.
Lemma put_fixed k x : kind_ok k x -> put (WFixed k x) = layout k x.
Proof. intro H. rewrite put_ok by exact I. cbn [appended]. now apply layout_eq. Qed.
Lemma put_bytes b : put (WBytes b) = b.
Proof. now rewrite put_ok. Qed.
Lemma put_var i : 0 <= i < 2 ^ 64 -> put (WVar i) = var_bytes i.
Proof. intro H. now rewrite put_ok. Qed.
Lemma to_bits_small k n : 0 <= n < 256 ^ Z.of_nat (width k) -> to_bits k n = n.
Proof. intro H. unfold to_bits. now apply Z.mod_small. Qed.
Lemma prefix_pre p n : not_i64 p = true -> 0 <= n -> pfits p n -> prefix p n = pre p n.
Proof.
  intros N P F. destruct p; cbn [pfits prefix pre] in *; try discriminate.
  - rewrite Z.mod_small by lia. apply put_var. lia.
  - unfold IntUint8. rewrite put_ok by exact I. cbn [appended width]. rewrite to_bits_small; [reflexivity|]. cbn [width]. change (256 ^ Z.of_nat 1) with (2 ^ 8). lia.
  - unfold IntUint16. rewrite put_ok by exact I. cbn [appended width]. rewrite to_bits_small; [reflexivity|]. cbn [width]. change (256 ^ Z.of_nat 2) with (2 ^ 16). lia.
  - unfold IntUint32. rewrite put_ok by exact I. cbn [appended width]. rewrite to_bits_small; [reflexivity|]. cbn [width]. change (256 ^ Z.of_nat 4) with (2 ^ 32). lia.
Qed.
Lemma flat_layout k xs : Forall (kind_ok k) xs -> flat_map (fun x => le_enc (width k) (to_bits k x)) xs = flat_map (layout k) xs.
Proof. induction 1; [reflexivity|]. cbn [flat_map]. now rewrite IHForall, layout_eq. Qed.
Lemma slVal_ok addr k xs : (k <> F64 \/ addr = false) -> Forall (kind_ok k) xs -> slVal addr k xs = flat_map (layout k) xs.
Proof.
  intros N F. unfold slVal. destruct xs as [|x xs]; [reflexivity|]. destruct addr.
  - rewrite <- flat_layout by exact F. destruct k; try (now rewrite put_ok); [| |now destruct N].
    + rewrite put_ok by exact I. cbn [appended]. clear. induction (x :: xs) as [|a l IH]; [reflexivity|].
      cbn [map flat_map]. rewrite IH. cbn [width le_enc]. unfold to_bits. cbn [width]. change (256 ^ Z.of_nat 1) with 256.
      now rewrite Z.mod_mod by lia.
    + rewrite put_ok by exact I. cbn [appended]. clear. induction (x :: xs) as [|a l IH]; [reflexivity|].
      cbn [map flat_map]. rewrite IH. cbn [width le_enc]. unfold to_bits. cbn [width]. change (256 ^ Z.of_nat 1) with 256.
      now rewrite Z.mod_mod by lia.
  - clear N. induction F; [reflexivity|]. cbn [flat_map]. rewrite put_fixed by assumption. now rewrite IHF.
Qed.
Lemma bytes_u8 b : Forall (kind_ok U8) b -> flat_map (layout U8) b = b.
Proof.
  induction 1 as [|x b Hx _ IH]; [reflexivity|]. cbn [flat_map]. rewrite IH. unfold kind_ok in Hx. cbn in Hx.
  unfold layout. destruct (Z.ltb_spec x 0); [lia|]. cbn [width le_enc app]. now rewrite Z.mod_small by lia.
Qed.
Lemma var_range k v : 0 <= v < 256 ^ Z.of_nat (width k) -> 0 <= v < 2 ^ 64.
Proof. intro H. destruct k; cbn [width] in H; cbn in H; lia. Qed.
Lemma var_len v : 0 <= v < 2 ^ 64 -> zlen (var_bytes v) = Z.of_nat (nbytes v) /\ 1 <= zlen (var_bytes v).
Proof.
  intro H. rewrite var_bytes_mark by exact H.
  assert (M : forall ds, length (mark ds) = length ds).
  { clear. induction ds as [|a [|b ds] IH]; [reflexivity..|]. cbn [mark length] in *. now rewrite IH. }
  unfold zlen. rewrite M, digs_length. pose proof (nbytes_range v). lia.
Qed.
Lemma varsize_right v : 0 <= v < 2 ^ 64 -> size_right v -> varu64size v = zlen (var_bytes v).
Proof. intros H S. destruct (var_len v H) as [-> _]. now apply (varsize_spec v H). Qed.
Lemma pre_len_ok p n : zlen (pre p n) = pre_len p n.
Proof. destruct p; cbn [pre pre_len]; unfold zlen; rewrite ?le_enc_length; reflexivity. Qed.

(** ** Types of constant size *)
Lemma zlen_flat {A} (f : A -> list Z) s l : (forall x, In x l -> zlen (f x) = s) -> zlen (flat_map f l) = zlen l * s.
Proof.
  induction l as [|x l IH]; intro H; [reflexivity|]. cbn [flat_map]. rewrite zlen_app, IH by (intros; apply H; now right).
  rewrite (H x (or_introl eq_refl)). unfold zlen. cbn [length]. lia.
Qed.
Lemma fixed_len :
  (forall t s v, fixed_size t = Some s -> fits t v -> zlen (lay false t v) = s /\ lay true t v = lay false t v) /\
  (forall fs s vs, fixed_sizes fs = Some s -> fits_flds fs vs -> zlen (lays fs vs) = s).
Proof.
  apply ty_flds_ind.
  - intros k s v E F. injection E as <-. cbn [lay]. unfold layout, zlen. rewrite le_enc_length. now split.
  - discriminate.
  - discriminate.
  - intros n t IH s v E F. cbn [fixed_size] in E. destruct (fixed_size t) as [s'|] eqn:K; [|discriminate]. injection E as <-.
    destruct F as [L F]. cbn [lay]. split; [|reflexivity]. rewrite (zlen_flat _ s').
    + apply (f_equal (fun a => a * s')). exact (f_equal Z.of_nat L).
    + intros x Hx. rewrite Forall_forall in F. destruct (IH s' x eq_refl (F x Hx)) as [A ->]. exact A.
  - discriminate.
  - discriminate.
  - intros fs IH s v E F. cbn [fixed_size lay fits] in *. split; [now apply IH|reflexivity].
  - intros s vs E _. injection E as <-. reflexivity.
  - intros tg t IHt fs IHf s [v vs] E F. cbn [fixed_sizes lays fits_flds] in *. destruct F as [F1 F2].
    set (x := match tg with TgSkip => Some 0 | _ => _ end) in E. destruct x as [a|] eqn:X; [|discriminate].
    destruct (fixed_sizes fs) as [b|]; [|discriminate]. injection E as <-. rewrite zlen_app, (IHf b vs eq_refl F2). f_equal.
    destruct tg; cbn [fits_flds] in F1; subst x.
    + injection X as <-. reflexivity.
    + destruct (IHt a v X F1) as [A B]. congruence.
    + destruct F1 as (F1 & _). destruct (fixed_size t) as [s|]; [|discriminate]. injection X as <-.
      destruct (IHt s v eq_refl F1) as [A B]. rewrite zlen_app, pre_len_ok, A. reflexivity.
    + destruct F1 as (F1 & _). destruct (fixed_size t) as [s|] eqn:K; [|discriminate]. destruct (count_const t) as [c|] eqn:C; [|discriminate].
      injection X as <-. destruct (IHt s v eq_refl F1) as [A B]. rewrite zlen_app, pre_len_ok, A.
      destruct t; cbn [count_const count] in *; try discriminate; now injection C as <-.
    + now destruct (IHt a v X F1).
Qed.
Lemma truthful_sz t rd : truthful t = true -> sz0 rd t = match fixed_size t with Some s => s | None => -1 end.
Proof.
  unfold truthful, sz0. intro H. bools.
  destruct rd.
  - destruct (Sz true t) as [s|]; [|discriminate]. destruct (fixed_size t); now apply Z.eqb_eq in H0.
  - destruct (Sz false t) as [s|]; [|discriminate]. destruct (fixed_size t); now apply Z.eqb_eq in H.
Qed.
Lemma zlen_nn {A} (l : list A) : 0 <= zlen l. Proof. apply zlen_nonneg. Qed.
Lemma size1_truthful t v : truthful t = true -> fits t v -> sz_get t v = -1 -> size1 t v = -1 \/ size1 t v = zlen (lay false t v).
Proof.
  intros T F G. unfold size1. rewrite (truthful_sz t false T). destruct (fixed_size t) as [s|] eqn:K.
  - destruct (proj1 fixed_len t s v K F) as [A _]. rewrite <- A. destruct (Z.leb_spec 0 (zlen (lay false t v))); [now right|]. pose proof (zlen_nn (lay false t v)). lia.
  - cbn [Z.leb Z.compare]. now left.
Qed.

(** ** The class, seen from the outside *)
Definition goodT (addr : bool) (t : ty) : bool :=
  match t with
  | TStr => true
  | TSl (TNum U8) => true
  | TSl (TNum _) => false
  | TSl t => goodA true t && nonempty t
  | TArr n (TVar k) => unsigned k
  | TStruct fs => goodF addr true fs
  | _ => goodA addr t
  end.
Definition goodR (addr : bool) (t : ty) : bool :=
  match t with TStr | TSl _ => false | TArr n (TVar k) => unsigned k | _ => goodA addr t end.
Definition size_ok (addr : bool) (t : ty) : bool :=
  match t with
  | TStr => true
  | TSl t =>
      match t with
      | TNum F64 => false
      | TNum _ => true
      | _ => goodA true t && truthful t && nonempty t && negb (sz0 true t =? 0)
      end
  | TArr n (TVar k) => unsigned k
  | TArr _ _ => goodA addr t && truthful t
  | TPtr t => goodA true t && truthful t && match fixed_size t with Some s => 0 <? s | None => false end
  | TStruct fs => goodF addr (sz0 true t <? 0) fs && truthful t
  | _ => goodA addr t
  end.
Definition cnt_ok (addr : bool) (t : ty) : bool :=
  match t with
  | TArr n (TVar k) => unsigned k
  | TPtr t => goodA true t && match t with TNum _ | TStruct _ => true | TArr n _ => negb (Nat.eqb n 0) | _ => false end
  | _ => goodA addr t
  end.
Lemma goodF_cons addr tail tg t fs : goodF addr tail (FCons tg t fs) =
  match tg with
  | TgSkip => true
  | TgAuto =>
      Bool.eqb (drop false tg t) (drop true tg t) &&
      (if drop false tg t then match fixed_size t with Some 0 => true | _ => false end else true) && goodA addr t
  | TgSize p => not_i64 p && size_ok addr t
  | TgCnt p => not_i64 p && cnt_ok addr t
  | TgNo => (match fs with FNil => true | _ => false end) && negb (drop false tg t) && negb (drop true tg t) &&
            if tail then goodT addr t else goodR addr t
  end && goodF addr tail fs.
Proof. destruct tg; try reflexivity; destruct tail, t as [| | |n t|t|t|]; try reflexivity; destruct t; reflexivity. Qed.
(** types of elements: [goodA] with the numbers made explicit *)
Lemma elem_num addr t : elem_ok (goodA addr) addr t = true -> goodA addr t = true.
Proof. destruct t as [k| | | | | |]; cbn; auto. Qed.

(** ** Writing follows the layout *)
Lemma enc_list_ok {A} (f : A -> out (list Z)) (g : A -> list Z) l : (forall x, In x l -> f x = Ok (g x)) -> enc_list f l = Ok (flat_map g l).
Proof.
  induction l as [|x l IH]; intro H; [reflexivity|]. cbn [enc_list flat_map]. rewrite (H x (or_introl eq_refl)). cbn [bind].
  rewrite IH by (intros; apply H; now right). reflexivity.
Qed.
Lemma count32 {A} (l : list A) b : zlen l < 2 ^ 32 -> with_count P32 (Some (zlen l)) (Ok b) = Ok (le_enc 4 (zlen l) ++ b).
Proof. intro H. cbn [with_count bind]. rewrite prefix_pre; [reflexivity|reflexivity|apply zlen_nn|exact H]. Qed.
Definition is_var (t : ty) : bool := match t with TVar _ => true | _ => false end.
(** unfolding without the cases on the element type *)
Definition raw_list (addr : bool) (t : ty) (v : list (val t)) : out (list Z) :=
  match t return (val t -> out (list Z)) -> list (val t) -> out (list Z) with
  | TNum k => fun _ v => Ok (slVal addr k v)
  | _ => fun f v => enc_list f v
  end (enc true addr t) v.
Lemma enc_arr auto addr n t v : is_var t = false \/ auto = false -> enc auto addr (TArr n t) v = raw_list addr t v.
Proof. intros [H|H]; [destruct t; try discriminate; reflexivity|]. subst. destruct t; reflexivity. Qed.
Lemma enc_sl auto addr t v : enc auto addr (TSl t) v = if auto then with_count P32 (Some (zlen v)) (raw_list true t v) else raw_list true t v.
Proof. destruct t; reflexivity. Qed.
Definition EA (t : ty) := forall addr v, goodA addr t = true -> fits t v -> enc true addr t v = Ok (lay true t v).
Definition ER (t : ty) := forall addr v, goodA addr t || goodT addr t = true -> fits t v -> enc false addr t v = Ok (lay false t v).
Lemma raw_list_ok addr t v : EA t -> elem_ok (goodA addr) addr t = true -> Forall (fits t) v -> raw_list addr t v = Ok (flat_map (lay true t) v).
Proof.
  intros E G F. pose proof (elem_num _ _ G) as G'. unfold raw_list. destruct t as [k| | | | | |];
  try (apply enc_list_ok; intros x Hx; apply E; [exact G'|rewrite Forall_forall in F; now apply F]).
  rewrite slVal_ok; [reflexivity| |exact F]. cbn [elem_ok] in G. destruct k; try (left; discriminate). right. now destruct addr.
Qed.
Lemma arr_nv addr n t : goodA addr (TArr n t) = true -> is_var t = false /\ elem_ok (goodA addr) addr t = true.
Proof. destruct t; intro H; try (split; [reflexivity|exact H]). discriminate. Qed.
Lemma arrT_nv addr n t : goodT addr (TArr n t) = true -> elem_ok (goodA addr) addr t = true.
Proof. destruct t; intro H; exact H. Qed.
Lemma slT_el addr t : goodA addr (TSl t) || goodT addr (TSl t) = true -> elem_ok (goodA true) true t = true.
Proof.
  intro H. apply orb_prop in H. destruct H as [H|H]; [exact H|]. cbn [goodT] in H. destruct t as [k| | | | | |]; try (bools; assumption).
  destruct k; try discriminate; reflexivity.
Qed.

Lemma size_of_ok addr t v : size_ok addr t = true -> fits t v -> ber_sizes_right t v -> size_of t v = -1 \/ size_of t v = zlen (lay false t v).
Proof.
  intros S F B. destruct t as [k|k| |n t|t|t|fs]; cbn [size_of].
  - right. unfold size1, sz0. cbn [Sz lay]. unfold layout, zlen. rewrite le_enc_length. destruct k; reflexivity.
  - right. cbn [fits ber_sizes_right] in *. unfold size1, sz0. cbn [Sz Z.leb Z.compare sz_get lay]. apply varsize_right; [eapply var_range; exact F|exact B].
  - right. reflexivity.
  - destruct t as [k|k| |m t|t|t|fs]; try (cbn [size_ok] in S; bools; apply size1_truthful; [assumption|exact F|reflexivity]).
    right. unfold size1, sz0. cbn [Sz Z.leb Z.compare sz_get lay]. cbn [ber_sizes_right fits] in B, F. destruct F as [_ F].
    clear S. revert F B. generalize v as l. cbn [val]. intros l F B. induction l as [|x l IH]; [reflexivity|].
    apply Forall_cons_iff in F, B. destruct F as [F1 F], B as [B1 B].
    cbn [fold_right flat_map]. rewrite zlen_app, <- (IH F B). f_equal. cbn [lay]. apply varsize_right; [eapply var_range; exact F1|exact B1].
  - cbn [fits] in F. destruct F as [_ F].
    assert (Z : sz0 false (TSl t) = -1) by (unfold sz0; cbn [Sz]; destruct (Sz false t); reflexivity).
    unfold size1. rewrite Z. cbn [Z.leb Z.compare].
    destruct (is_var t) eqn:V.
    + destruct t as [k|k| |m t|t|t|fs]; try discriminate. right. cbn [sz_get lay]. cbn [ber_sizes_right] in B.
      clear S Z V. revert F B. generalize v as l. cbn [val]. intros l F B. induction l as [|x l IH]; [reflexivity|].
      apply Forall_cons_iff in F, B. destruct F as [F1 F], B as [B1 B].
      cbn [fold_right flat_map app] in *. rewrite zlen_app, <- (IH F B). f_equal. cbn [lay]. apply varsize_right; [eapply var_range; exact F1|exact B1].
    + assert (G : sz_get (TSl t) v = if 0 <=? sz0 false t then zlen v * sz0 false t else -1) by (destruct t; try discriminate; reflexivity).
      rewrite G. assert (T : truthful t = true).
      { cbn [size_ok] in S. destruct t as [k| | | | | |]; try (bools; assumption). destruct k; reflexivity. }
      rewrite (truthful_sz t false T). destruct (fixed_size t) as [s|] eqn:K; [|now left].
      destruct (Z.leb_spec 0 s); [right|now left]. cbn [lay app]. symmetry. apply zlen_flat. intros x Hx.
      rewrite Forall_forall in F. destruct (proj1 fixed_len t s x K (F x Hx)) as [A ->]. exact A.
  - cbn [size_ok] in S. bools. destruct v as [v|]; [|now right]. cbn [fits lay] in *.
    right. unfold size1. rewrite (truthful_sz t false H1). destruct (fixed_size t) as [s|] eqn:K; [|discriminate].
    apply Z.ltb_lt in H0. destruct (Z.leb_spec 0 s); [|lia]. symmetry. now apply (proj1 fixed_len).
  - cbn [size_ok] in S. bools. apply size1_truthful; [assumption|exact F|reflexivity].
Qed.
Lemma count_ok addr t v : cnt_ok addr t = true -> fits t v -> cnt_of t v = Some (count t v) /\ 0 <= count t v.
Proof.
  intros G F. destruct t as [k|k| |n t|t|t|fs]; cbn [cnt_of cnt1 count]; try (split; [reflexivity|try apply zlen_nn; lia]).
  cbn [cnt_ok] in G. bools. destruct v as [v|]; [|split; [reflexivity|lia]].
  destruct t; try discriminate; cbn [cnt1]; split; try reflexivity; lia.
Qed.
Lemma enc_ok :
  (forall t, (EA t /\ ER t) /\ match t with TPtr t => ER t | _ => True end) /\
  (forall fs addr tail vs, goodF addr tail fs = true -> fits_flds fs vs -> enc_flds addr fs vs = Ok (lays fs vs)).
Proof.
  apply ty_flds_ind.
  - intros k. split; [|exact I]. split; intros addr v G F; cbn [enc lay]; now rewrite put_fixed.
  - intros k. split; [|exact I]. split; intros addr v G F; cbn [enc lay]; (rewrite put_var; [reflexivity|eapply var_range; exact F]).
  - split; [|exact I]. split; intros addr v G F; cbn [enc lay fits] in *; rewrite put_bytes; [|reflexivity]. destruct F as [_ F].
    exact (count32 v v F).
  - intros n t [[IA IR] _]. split; [|exact I]. split; intros addr v G [L F].
    + apply arr_nv in G. destruct G as [V G]. rewrite enc_arr by (now left). cbn [lay]. now apply raw_list_ok.
    + rewrite enc_arr by (now right). cbn [lay]. apply raw_list_ok; [exact IA| |exact F]. apply orb_prop in G. destruct G as [G|G].
      * now apply arr_nv in G. * now apply arrT_nv in G.
  - intros t [[IA IR] _]. split; [|exact I]. split; intros addr v G [L F]; rewrite enc_sl; cbn [lay].
    + rewrite raw_list_ok by assumption. now apply count32.
    + apply slT_el in G. now rewrite raw_list_ok.
  - intros t [[IA IR] _]. split; [|exact IR]. split; intros addr v G F; [discriminate|]. cbn in G. discriminate.
  - intros fs IH. split; [|exact I]. split; intros addr v G F; cbn [enc lay].
    + now apply (IH addr false).
    + apply orb_prop in G. destruct G as [G|G]; [now apply (IH addr false)|now apply (IH addr true)].
  - intros; reflexivity.
  - intros tg t [[IA IR] IP] fs IHf addr tail [v vs] G [F1 F2]. rewrite goodF_cons in G. apply andb_prop in G. destruct G as [G G2].
    cbn [enc_flds lays]. rewrite (IHf addr tail vs G2 F2).
    match goal with |- bind ?x _ = Ok (?y ++ _) => assert (E : x = Ok y); [|rewrite E; reflexivity] end.
    destruct tg; cbn [drop dropped].
    + reflexivity.
    + bools. unfold drop in *. cbn [dropped] in *. destruct (raw_sz t (sz0 false t) =? 0) eqn:D.
      * destruct (fixed_size t) as [s|] eqn:K; [|discriminate]. destruct s; try discriminate.
        destruct (proj1 fixed_len t 0 v K F1) as [A ->]. unfold zlen in A. destruct (lay false t v); [reflexivity|cbn in A; lia].
      * now apply IA.
    + bools. destruct F1 as (F1 & P & B). pose proof (zlen_nn (lay false t v)) as ZN.
      assert (W : enc false addr t v = Ok (lay false t v)).
      { destruct t as [k|k| |n t|t|t|gs]; cbn [size_ok] in H0.
        - apply IR; [|exact F1]. reflexivity.
        - apply IR; [|exact F1]. now rewrite H0.
        - apply IR; [|exact F1]. reflexivity.
        - apply IR; [|exact F1]. destruct t; bools; try (now rewrite H0). cbn. exact H0.
        - apply IR; [|exact F1]. apply orb_true_intro. left. cbn [goodA]. destruct t as [k| | | | | |]; cbn [elem_ok]; bools; try assumption; destruct k; try discriminate; reflexivity.
        - destruct v as [v|]; [|reflexivity]. cbn [enc lay]. bools. apply IP; [|exact F1]. now rewrite H0.
        - apply IR; [|exact F1]. bools. destruct (sz0 true (TStruct gs) <? 0); cbn [goodT goodA]; rewrite H0; [apply orb_true_r|reflexivity]. }
      rewrite W. unfold with_size. destruct (size_of_ok addr t v H0 F1 B) as [S|S]; rewrite S; cbn [Z.leb Z.compare bind].
      * now rewrite prefix_pre.
      * destruct (Z.leb_spec 0 (zlen (lay false t v))); [|lia]. now rewrite prefix_pre.
    + bools. destruct F1 as (F1 & P).
      assert (W : enc false addr t v = Ok (lay false t v)).
      { destruct t as [k|k| |n t|t|t|gs]; cbn [cnt_ok] in H0; try (apply IR; [now rewrite H0|exact F1]).
        - apply IR; [|exact F1]. destruct t; try (now rewrite H0). cbn. exact H0.
        - destruct v as [v|]; [|reflexivity]. cbn [enc lay]. bools. apply IP; [|exact F1]. now rewrite H0. }
      rewrite W. destruct (count_ok addr t v H0 F1) as [-> C]. cbn [with_count bind]. now rewrite prefix_pre.
    + bools. unfold drop in H2. cbn [dropped] in H2. rewrite H2. apply IR; [|exact F1]. apply orb_true_intro.
      destruct tail; [now right|]. destruct t as [k|k| |n t|t|t|gs]; cbn [goodR goodA goodT] in *; try (left; exact H0); try discriminate.
      destruct t; try (left; exact H0). now right.
Qed.
