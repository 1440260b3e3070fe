(** The writer of named types gives the bytes that stand for the value. *)
From Coq Require Import ZArith List Bool Arith Lia Relations.
Import ListNotations.
From Verif Require Import Base PrimModel PrimSpec PrimProofs.
From Verif Require CodecModel CodecSpec CodecProofs.
From Verif Require Import RegModel RegSpec RegProofs FillModel FillProofs RecWeak NomModel NomSpec NomProofs NomRec NomLaySpec.
Open Scope Z_scope.

Scheme means_ind3 := Minimality for means Sort Prop with items_ind3 := Minimality for items Sort Prop with parts_ind3 := Minimality for parts Sort Prop.
Scheme fixed_ind2 := Minimality for fixed Sort Prop with fixeds_ind2 := Minimality for fixeds Sort Prop.
Combined Scheme fixed_both from fixed_ind2, fixeds_ind2.
Combined Scheme means_all from means_ind3, items_ind3, parts_ind3.
Section Lay.
Variable T : nat -> shape.

(** ** types of constant size *)
Lemma const_amount t n v m : constcount T t n -> amount T t v m -> m = n.
Proof. intros C A. inversion C; subst; inversion A; subst; congruence. Qed.
Lemma layout_len k x : zlen (layout k x) = Z.of_nat (width k).
Proof. unfold layout, zlen. now rewrite le_enc_length. Qed.
Ltac fin2 IH1 IH2 := match goal with M : means _ _ _ _ _, R : parts _ _ _ _ |- _ => rewrite !zlen_app, (IH1 _ _ _ M), (IH2 _ _ R) end.
Lemma fixed_len :
  (forall t z, fixed T t z -> forall a v b, means T a t v b -> zlen b = z) /\
  (forall fs z, fixeds T fs z -> forall vs b, parts T fs vs b -> zlen b = z).
Proof.
  apply (fixed_both T (fun t z => forall a v b, means T a t v b -> zlen b = z) (fun fs z => forall vs b, parts T fs vs b -> zlen b = z)).
  - intros t k E a v b M. inversion M; subst; try congruence. rewrite layout_len. congruence.
  - intros t n e z E F IH a v b M. inversion M as [| |? ? ? ? l ? E2 L I| | | | | | | |]; subst; try congruence.
    rewrite E in E2. injection E2 as -> <-. clear M E. induction I as [e|e v l a' b M I IHI]; [reflexivity|].
    rewrite zlen_app, (IH _ _ _ M), (IHI F IH). cbn [length]. lia.
  - intros t fs z E F IH a v b M. inversion M; subst; try congruence. apply (IH vs). congruence.
  - intros vs b P. inversion P; subst. reflexivity.
  - intros e fs z F IH vs b P. inversion P; subst. now apply (IH vs0).
  - intros e fs y z F IH1 G IH2 vs b P. inversion P; subst. fin2 IH1 IH2. reflexivity.
  - intros p e fs y z F IH1 B G IH2 vs b P. inversion P; subst. fin2 IH1 IH2. lia.
  - intros p e fs n y z F IH1 C N B G IH2 vs b P. inversion P; subst. fin2 IH1 IH2. match goal with A : amount _ _ _ _ |- _ => rewrite (const_amount _ _ _ _ C A) end. lia.
Qed.
Lemma fixed_bytes t z a v b : fixed T t z -> means T a t v b -> zlen b = z.
Proof. intros F M. exact (proj1 fixed_len t z F a v b M). Qed.
Lemma fixed_nn t z : fixed T t z -> 0 <= z.
Proof.
  intro F. apply (fixed_ind2 T (fun t z => 0 <= z) (fun fs z => 0 <= z)) with (n := t); try exact F; intros; try lia; try nia;
  match goal with |- context[zlen ?x] => pose proof (CodecProofs.zlen_nn x) end; lia.
Qed.
Lemma fixed_items e z l b : fixed T e z -> items T e l b -> zlen b = zlen l * z.
Proof.
  intros F I. induction I as [e|e v l a b M I IH]; [reflexivity|]. rewrite zlen_app, (fixed_bytes _ _ _ _ _ F M), (IH F). unfold zlen. cbn [length]. lia.
Qed.

(** ** codecs *)
Variable g : nat -> info.
(** what Fill of t found of the codec of a part: its size, or -1 if the part contains t and was not ready *)
Definition near (t u : nat) (i : info) : Prop := i = g u \/ (i_sz i = -1 /\ within T u t).
Definition codec_ok (t : nat) : Prop :=
  exists is, g t = fin T t is /\ Forall2 (near t) (needs (prog T) t) is /\ ~ In Fail (prog T t).
Definition codecs (t : nat) : Prop := forall u, within T t u -> codec_ok u.
Definition vcodecs (v : dv) : Prop := forall t, holds t v -> codecs t.
Lemma codecs_self t : codecs t -> codec_ok t.
Proof. intro C. apply C. constructor. Qed.
Lemma codecs_part t u : codecs t -> contains T t u -> codecs u.
Proof. intros A C w W. apply A. apply within_trans with u; [|exact W]. apply within_part with t; [constructor|exact C]. Qed.
Lemma vcodecs_ref v : vcodecs (VRef v) -> vcodecs v.
Proof. intros A t H. apply A. now constructor. Qed.
Lemma vcodecs_dyn t v : vcodecs (VDyn t v) -> codecs t /\ vcodecs v.
Proof. intro A. split; [apply A; constructor|]. intros u H. apply A. now constructor. Qed.
Lemma vcodecs_in v l : vcodecs (VSeq l) -> In v l -> vcodecs v.
Proof. intros A I t H. apply A. now apply holds_seq with v. Qed.
Lemma vcodecs_cons v l : vcodecs (VSeq (v :: l)) -> vcodecs v /\ vcodecs (VSeq l).
Proof. intro A. split; [apply (vcodecs_in v _ A); now left|]. intros t H. apply A. inversion H as [| | |x ? X Y]; subst. apply holds_seq with x; [now right|exact Y]. Qed.

(** ** counts *)
Lemma prefix_ok p n : p <> CodecModel.P64 -> 0 <= n -> pfits p n -> CodecModel.prefix p n = pre p n.
Proof. intros N P F. apply CodecProofs.prefix_pre; trivial. now destruct p. Qed.
Lemma with_count_ok p c b n : p <> CodecModel.P64 -> c = Ok n -> 0 <= n -> pfits p n -> with_count p c (Ok b) = Ok (pre p n ++ b).
Proof. intros N -> P F. cbn. now rewrite prefix_ok. Qed.
Lemma amount_nn t v n : amount T t v n -> 0 <= n.
Proof. induction 1; try lia; apply CodecProofs.zlen_nn. Qed.
Lemma no_addr_false u addr : u_ptr u = false -> no_addr u addr = false.
Proof. unfold no_addr. now intros ->. Qed.
Lemma cnt_of t : codec_ok t -> i_cnt (g t) = match T t with SNum _ | SStruct _ => 1 | SArr n _ => Z.of_nat n | _ => -1 end.
Proof. intros (is & -> & _). unfold fin. destruct (T t); try reflexivity. destruct (scan fs is 0). reflexivity. Qed.
Ltac get C := rewrite (cnt_of _ C).
Lemma count1_ok addr t v n : codec_ok t -> amount T t v n -> match T t with SPtr _ | SIface => False | SUser u => u_kind u = KOther /\ u_ptr u = false | _ => True end ->
  count1 T g addr t v = Ok n.
Proof.
  intros C A K. unfold count1. get C. inversion A; subst; rewrite H in *; try contradiction; cbn [Z.leb Z.compare]; try reflexivity.
  - now destruct n0.
  - destruct K as [K1 K2]. rewrite H1, (no_addr_false _ _ K2). destruct (Z.leb_spec 0 (f v)); [reflexivity|lia].
  - destruct K as [K1 K2]. contradiction.
  - destruct K as [K1 K2]. congruence.
Qed.
Lemma count_of_ok t v n : amount T t v n -> forall addr, codecs t -> vcodecs v -> countable T t v -> count_of T g addr t v = Ok n.
Proof.
  induction 1 as [t k v E|t fs v E|t l E|t m e v E|t e l E|t e E|t e w n E A IH|t E|t u w n E A IH|t u f v E K F P|t u E K|t u t' w n E K A IH]; intros addr C V Q.
  - destruct v; cbn [count_of]; rewrite E; (apply count1_ok; [now apply codecs_self|now apply am_num with k|now rewrite E]).
  - destruct v; cbn [count_of]; rewrite E; (apply count1_ok; [now apply codecs_self|now apply am_struct with fs|now rewrite E]).
  - cbn [count_of]; rewrite E; (apply count1_ok; [now apply codecs_self|now apply am_str|now rewrite E]).
  - destruct v; cbn [count_of]; rewrite E; (apply count1_ok; [now apply codecs_self|now apply am_arr with e|now rewrite E]).
  - cbn [count_of]; rewrite E; (apply count1_ok; [now apply codecs_self|now apply am_sl with e|now rewrite E]).
  - cbn [count_of]; now rewrite E.
  - cbn [count_of countable] in *. rewrite E in *. apply count1_ok; trivial. apply codecs_self. apply (codecs_part t); [exact C|]. unfold contains. now rewrite E.
  - cbn [count_of]; now rewrite E.
  - cbn [count_of countable] in *. rewrite E in *. apply vcodecs_dyn in V. now apply IH.
  - assert (Q' : u_kind u = KOther /\ u_ptr u = false).
    { destruct v; cbn [countable] in Q; rewrite E in Q; destruct Q as [Q1 Q2]; split; trivial; destruct (u_kind u); try contradiction; destruct K as [K|[K K']]; try discriminate; try reflexivity; now contradiction K'. }
    destruct Q' as [Q1 Q2].
    assert (X : count1 T g addr t v = Ok (f v)) by (apply count1_ok; [now apply codecs_self|now apply am_user with u|now rewrite E]).
    destruct v; cbn [count_of]; rewrite E, Q1; exact X.
  - cbn [count_of]; rewrite E. now destruct (u_kind u).
  - cbn [count_of countable] in *. rewrite E, K in *. apply vcodecs_dyn in V. apply IH; tauto.
Qed.

(** ** sizes *)
Lemma get_of t : codec_ok t -> i_get (g t) = match T t with SStr => true | SSl _ => i_get (g t) | SUser u => match u_size u with Some _ => true | None => false end | _ => false end.
Proof. intros (is & -> & M & _). unfold fin. destruct (T t); try reflexivity. destruct (scan fs is 0). reflexivity. Qed.
Lemma get_slice t e : codec_ok t -> T t = SSl e -> i_get (g t) = true -> 0 <= i_sz (g e).
Proof.
  intros (is & -> & M & _) E. unfold fin, needs, prog in *. rewrite E in *. cbn in *. inversion M as [|u i us is' N M']; subst. cbn [i_get]. intro L. apply Z.leb_le in L. destruct N as [->|[N _]]; lia.
Qed.
Lemma sz_neg t : codec_ok t -> match T t with SNum _ | SArr _ _ | SStruct _ => False | _ => True end -> i_sz (g t) = -1.
Proof. intros (is & -> & _). unfold fin. now destruct (T t). Qed.
Lemma size1_ok addr t v b : codec_ok t -> means T false t v b -> (forall x, T t = SSl x -> size_kept T g x) -> (forall u, T t = SUser u -> honest T u) ->
  match T t with SNum _ | SArr _ _ | SStruct _ => size_kept T g t | _ => True end ->
  exists z, size1 T g addr t v = Ok z /\ (z < 0 \/ z = zlen b).
Proof.
  intros C M KS KU KT. unfold size1. destruct (Z.leb_spec 0 (i_sz (g t))) as [L|L].
  - exists (i_sz (g t)). split; [reflexivity|]. right. destruct (T t) eqn:E; try (rewrite (sz_neg t C) in L; [lia|now rewrite E]);
    (destruct KT as [KT|KT]; [lia|symmetry; now apply (fixed_bytes t _ false v)]).
  - rewrite (get_of t C). destruct (T t) eqn:E; try (exists (-1); split; [reflexivity|left; lia]).
    + inversion M; subst; try congruence. exists (zlen l). split; [reflexivity|]. right. reflexivity.
    + destruct (i_get (g t)) eqn:B; [|exists (-1); split; [reflexivity|left; lia]].
      inversion M as [| | |? ? e l ? E2 L2 I2| | | | | | |]; subst; try congruence. rewrite E in E2. injection E2 as <-. cbn [seq]. exists (zlen l * i_sz (g t0)). split; [reflexivity|]. right. cbn [count4 app].
      pose proof (get_slice t t0 C E B) as B'. destruct (KS t0 eq_refl) as [K|K]; [lia|]. now rewrite (fixed_items _ _ _ _ K I2).
    + destruct (KU u eq_refl) as (P & S & _). destruct (u_size u) as [f|] eqn:F; [|exists (-1); split; [reflexivity|left; lia]].
      rewrite (no_addr_false u addr P). exists (f v). split; [reflexivity|]. inversion M; subst; try congruence. rewrite E in H. injection H as <-. now apply S.
Qed.
Lemma user_means t u v b : T t = SUser u -> means T false t v b -> u_write u v = Ok b.
Proof. intros E M. inversion M; subst; congruence. Qed.
Lemma size_of_ok v : forall t b, means T false t v b -> forall addr, codecs t -> vcodecs v -> sizable T g t v -> exists z, size_of T g addr t v = Ok z /\ (z < 0 \/ z = zlen b).
Proof.
  induction v as [x|l|l IH| |v IH|u v IH] using dv_ind2; intros t b M addr C V Q; destruct (T t) eqn:E; cbn [size_of sizable] in *; rewrite E in *;
  try (apply size1_ok; [now apply codecs_self|exact M|intros y Y; congruence|intros y Y; congruence|rewrite E; try exact Logic.I; exact Q]);
  try (inversion M; congruence);
  try (inversion M; subst; try congruence; exists 0; split; [reflexivity|right; reflexivity]).
  all: try (assert (R : exists z, size1 T g addr t (VSeq l) = Ok z /\ (z < 0 \/ z = zlen b)) by (apply size1_ok; [now apply codecs_self|exact M|intros y Y; congruence|intros y Y; congruence|rewrite E; exact Logic.I]); exact R).
  all: try (apply size1_ok; [now apply codecs_self|exact M|intros y Y; rewrite E in Y; injection Y as <-; exact Q|intros y Y; congruence|rewrite E; exact Logic.I]).
  all: try (destruct Q as [H Q]; destruct (u_kind u) eqn:K; try contradiction; try (apply size1_ok; [now apply codecs_self|exact M|intros y Y; congruence|intros y Y; rewrite E in Y; injection Y as <-; exact H|rewrite E; exact Logic.I])).
  - destruct H as (_ & _ & H & _). rewrite (H ltac:(congruence) b (user_means _ _ _ _ E M)). exists 0. split; [reflexivity|now right].
  - destruct H as (_ & _ & H & _). rewrite (H ltac:(congruence) b (user_means _ _ _ _ E M)). exists 0. split; [reflexivity|now right].
  - inversion M as [| | | |? ? e ? ? E2 M2| | | | | |]; subst; try congruence. rewrite E in E2. injection E2 as <-. destruct Q as [Q1 Q2].
    apply size1_ok; [apply codecs_self; apply (codecs_part t); [exact C|unfold contains; now rewrite E]|exact M2|intros y Y; now rewrite Y in Q2|intros y Y; now rewrite Y in Q2|]. now destruct (T t0).
  - inversion M as [| | | | | | | |? ? ? ? ? E2 M2| |]; subst; try congruence. apply vcodecs_dyn in V. now apply IH.
  - destruct Q as [H Q]. destruct (u_kind u0) eqn:K; [contradiction| |apply size1_ok; [now apply codecs_self|exact M|intros y Y; congruence|intros y Y; rewrite E in Y; injection Y as <-; exact H|rewrite E; exact Logic.I]].
    destruct H as (_ & _ & _ & H). destruct (H K u v b (user_means _ _ _ _ E M)) as (u' & E' & _ & W). apply vcodecs_dyn in V. apply IH; try tauto. now apply me_user with u'.
Qed.

(** ** fields *)
Definition needf (b : bool) (fs : list (tag * nat)) : list nat := flat_map (fun i => match i with Need u => [u] | Fail => [] end) (field_instrs b fs).
Definition wflds (addr : bool) : list bool -> list (tag * nat) -> list dv -> out (list Z) :=
  fix flds (ks : list bool) (fs : list (tag * nat)) (vs : list dv) {struct vs} : out (list Z) :=
             match ks, fs, vs with
             | [], [], [] => Ok []
             | k :: ks, (tg, e) :: fs, v :: vs =>
                 do! a <- (if k then match tg with
                                     | CodecModel.TgSkip => Ok []
                                     | CodecModel.TgSize p => with_size p (size_of T g addr e v) (wr T g false addr e v)
                                     | CodecModel.TgCnt p => with_count p (count_of T g addr e v) (wr T g false addr e v)
                                     | CodecModel.TgNo => wr T g false addr e v
                                     | _ => wr T g true addr e v
                                     end
                           else Ok []);
                 do! b <- flds ks fs vs; Ok (a ++ b)
             | _, _, _ => Panic
             end.
Definition tflds : list (tag * nat) -> list dv -> Prop :=
  fix flds (fs : list (tag * nat)) (vs : list dv) {struct vs} : Prop :=
             match fs, vs with
             | (tg, e) :: fs, v :: vs =>
                 match tg with
                 | CodecModel.TgSkip => True
                 | CodecModel.TgSize p => p <> CodecModel.P64 /\ sizable T g e v /\ tidy T g e v
                 | CodecModel.TgCnt p => p <> CodecModel.P64 /\ countable T e v /\ tidy T g e v
                 | _ => (i_sz (g e) = 0 -> fixed T e 0) /\ tidy T g e v
                 end /\ flds fs vs
             | _, _ => True
             end.
Lemma scan_cons tg e fs i is z : tg <> TgSkip -> exists z', snd (scan ((tg, e) :: fs) (i :: is) z) = negb (CodecModel.dropped tg (i_sz i)) :: snd (scan fs is z').
Proof.
  intro N. destruct tg; try congruence; cbn [scan]; cbv zeta;
  (match goal with |- context[CodecModel.dropped ?a ?b] => destruct (CodecModel.dropped a b) end;
   match goal with |- context[let '(_, _) := scan fs is ?x in _] => exists x; destruct (scan fs is x); reflexivity end).
Qed.
Definition has_codecs (fs : list (tag * nat)) : Prop := forall tg e, In (tg, e) fs -> tg <> TgSkip -> codecs e.
Definition Pm a t v b : Prop := forall addr, codecs t -> vcodecs v -> tidy T g t v -> wr T g a addr t v = Ok b.
Definition Pi e l b : Prop := forall addr, codecs e -> vcodecs (VSeq l) -> all (fun x => tidy T g e x) l -> each (fun x => wr T g true addr e x) l = Ok b.
Definition Pp fs vs b : Prop := forall addr t is z, Forall2 (near t) (needf false fs) is -> ~ In Fail (field_instrs false fs) ->
  has_codecs fs -> vcodecs (VSeq vs) -> tflds fs vs -> wflds addr (snd (scan fs is z)) fs vs = Ok b.
Lemma nums e k l b : T e = SNum k -> items T e l b -> Forall (kind_ok k) (map vnum l) /\ b = flat_map (layout k) (map vnum l).
Proof.
  intros E I. induction I as [e|e v l a b M I IH]; [split; [constructor|reflexivity]|]. destruct (IH E) as [F ->]. inversion M; subst; try congruence.
  rewrite E in H. injection H as <-. split; [now constructor|reflexivity].
Qed.
(** the elements of an array or slice *)
Lemma elems_ok addr e l b : items T e l b -> T e <> SNum F64 -> is_iface T e = false -> each (fun x => wr T g true addr e x) l = Ok b ->
  match T e with
  | SNum k => Ok (CodecModel.slVal addr k (map vnum l))
  | _ => if is_iface T e then each (fun x => match x with VNil => Ok [] | VDyn u w => wr T g false false u w | _ => Panic end) l else each (fun x => wr T g true addr e x) l
  end = Ok b.
Proof.
  intros I N B X. rewrite B, X. destruct (T e) eqn:E; try reflexivity. destruct (nums _ _ _ _ E I) as [F ->]. rewrite CodecProofs.slVal_ok; [reflexivity| |exact F]. left. congruence.
Qed.
Lemma all_in P l v : all P l -> In v l -> P v.
Proof. induction l as [|x l IH]; intros A I; [destruct I|]. destruct A as [A1 A2]. destruct I as [->|I]; [exact A1|now apply IH]. Qed.
Lemma needf_cons tg e fs : tg <> TgSkip -> ~ In Fail (field_instrs false ((tg, e) :: fs)) -> needf false ((tg, e) :: fs) = e :: needf false fs /\ ~ In Fail (field_instrs false fs).
Proof.
  intros N F. destruct tg; try congruence; cbn [field_instrs] in F; unfold needf; cbn [field_instrs flat_map app].
  1,2,3: split; [reflexivity|intro X; apply F; now right].
  destruct fs as [|f fs]; [split; [reflexivity|intros []]|]. destruct f as [tg' e']. cbn [field_instrs] in F. destruct F. right. now left.
Qed.
Lemma zero_bytes (b : list Z) : zlen b = 0 -> b = [].
Proof. destruct b; [reflexivity|]. unfold zlen. cbn [length]. lia. Qed.
Lemma fld_step (k : bool) tg e v vs fs ks addr a b :
  (if k then match tg with
                                     | CodecModel.TgSkip => Ok []
                                     | CodecModel.TgSize p => with_size p (size_of T g addr e v) (wr T g false addr e v)
                                     | CodecModel.TgCnt p => with_count p (count_of T g addr e v) (wr T g false addr e v)
                                     | CodecModel.TgNo => wr T g false addr e v
                                     | _ => wr T g true addr e v
                                     end
                           else Ok []) = Ok a -> wflds addr ks fs vs = Ok b -> wflds addr (k :: ks) ((tg, e) :: fs) (v :: vs) = Ok (a ++ b).
Proof. intros A B. cbn [wflds]. fold (wflds addr). rewrite A. cbn [CodecModel.bind]. rewrite B. reflexivity. Qed.
Lemma F2_cons {A B} (P : A -> B -> Prop) a l l' : Forall2 P (a :: l) l' -> exists b m, l' = b :: m /\ P a b /\ Forall2 P l m.
Proof. intro F. inversion F as [|? b ? m H1 H2]; subst. now exists b, m. Qed.
Ltac rest Q :=
  match goal with
  | MM : Forall2 (near ?t) (needf false ((?tg, ?e) :: ?fs)) ?is, F : ~ In Fail _, H : has_codecs _, V : vcodecs _ |- _ =>
      let N := fresh "N" in assert (N : tg <> TgSkip) by discriminate;
      destruct (needf_cons tg e fs N F) as [NE NF]; rewrite NE in MM; destruct (F2_cons _ _ _ _ MM) as (i & is' & EI & M0 & M1); rewrite EI in *; clear EI;
      pose proof (H tg e (or_introl eq_refl) N) as HC;
      assert (HR : has_codecs fs) by (intros tg' x I; apply (H tg'); now right);
      apply vcodecs_cons in V; destruct V as [V1 V2]; destruct Q as [Q1 Q2];
      match goal with |- wflds _ (snd (scan _ _ ?z)) _ _ = _ => destruct (scan_cons tg e fs i is' z N) as [z' SC]; rewrite SC end
  end.
Theorem wr_means : (forall a t v b, means T a t v b -> Pm a t v b) /\ (forall e l b, items T e l b -> Pi e l b) /\ (forall fs vs b, parts T fs vs b -> Pp fs vs b).
Proof.
  apply (means_all T Pm Pi Pp).
  - intros a t k x E K addr C V Q. cbn [wr]. rewrite E. now rewrite CodecProofs.put_fixed.
  - intros a t l E L addr C V Q. cbn [wr]. rewrite E. rewrite CodecProofs.put_bytes. destruct a; [|reflexivity].
    apply (with_count_ok P32 _ l (zlen l)); [discriminate| |apply CodecProofs.zlen_nn|exact L]. apply (count_of_ok t (VStr l)); trivial; [now apply am_str|]. cbn [countable]. now rewrite E.
  - intros a t n e l b E L I IH addr C V Q. cbn [wr tidy] in *. rewrite E in *. destruct Q as (Q1 & Q2 & Q3). apply (elems_ok addr e l b); trivial.
    apply IH; trivial. apply (codecs_part t); trivial. unfold contains. now rewrite E.
  - intros a t e l b E L I IH addr C V Q. cbn [wr tidy] in *. rewrite E in *. destruct Q as (Q1 & Q2 & Q3).
    pose proof (elems_ok true e l b I Q1 Q2 (IH true (codecs_part t e C ltac:(unfold contains; now rewrite E)) V Q3)) as X. cbn [seq]. rewrite X.
    destruct a; [|reflexivity]. apply (with_count_ok P32 _ b (zlen l)); [discriminate| |apply CodecProofs.zlen_nn|exact L].
    apply (count_of_ok t (VSeq l)); trivial; [now apply am_sl with e|]. cbn [countable]. now rewrite E.
  - intros a t e w b E M IH addr C V Q. cbn [wr tidy] in *. rewrite E in *. apply IH; trivial; [|now apply vcodecs_ref]. apply (codecs_part t); trivial. unfold contains. now rewrite E.
  - intros t e E addr C V Q. cbn [wr]. now rewrite E.
  - intros a t fs vs b E P IH addr C V Q. cbn [wr tidy] in *. rewrite E in *. change (wflds addr (i_keep (g t)) fs vs = Ok b). change (tflds fs vs) in Q.
    destruct (codecs_self t C) as (is & G & M & F). rewrite G. unfold fin, needs, prog in *. rewrite E in *.
    assert (X : wflds addr (snd (scan fs is 0)) fs vs = Ok b).
    { apply (IH addr t); trivial. intros tg x I N. apply (codecs_part t); [exact C|]. unfold contains. rewrite E. now exists tg. }
    destruct (scan fs is 0). exact X.
  - intros a t E addr C V Q. cbn [wr]. now rewrite E.
  - intros a t u w b E M IH addr C V Q. cbn [wr tidy] in *. rewrite E in *. apply vcodecs_dyn in V. now apply IH.
  - intros a t u v b E N W addr C V Q. assert (Q' : u_ptr u = false) by (destruct v; cbn [tidy] in Q; rewrite E in Q; tauto).
    assert (X : wr T g a addr t v = match u_count u with Some _ => if a then with_count P32 (count_of T g addr t v) (if no_addr u addr then Panic else u_write u v) else (if no_addr u addr then Panic else u_write u v) | None => if no_addr u addr then Panic else u_write u v end) by (destruct v; cbn [wr]; rewrite E; reflexivity).
    rewrite X, (no_addr_false _ _ Q'), W. destruct (u_count u); [|reflexivity]. now destruct a.
  - intros t u v n b E N W A L addr C V Q. assert (Q' : u_ptr u = false /\ countable T t v) by (destruct v; cbn [tidy] in Q; rewrite E in Q; tauto). destruct Q' as [Q1 Q2].
    assert (X : wr T g true addr t v = match u_count u with Some _ => with_count P32 (count_of T g addr t v) (if no_addr u addr then Panic else u_write u v) | None => if no_addr u addr then Panic else u_write u v end) by (destruct v; cbn [wr]; rewrite E; reflexivity).
    rewrite X, (no_addr_false _ _ Q1), W. destruct (u_count u); [|congruence]. apply (with_count_ok P32 _ b n); [discriminate| |now apply (amount_nn t v)|exact L]. now apply count_of_ok.
  - intros e addr C V Q. reflexivity.
  - intros e v l a b M IH1 I IH2 addr C V Q. destruct Q as [Q1 Q2]. apply vcodecs_cons in V. destruct V as [V1 V2]. cbn [each]. rewrite (IH1 addr C V1 Q1). cbn [CodecModel.bind]. now rewrite (IH2 addr C V2 Q2).
  - intros addr t is z M F H V Q. reflexivity.
  - intros e fs v vs b P IH addr t is z M F H V Q. apply vcodecs_cons in V. destruct V as [V1 V2]. cbn [scan]. destruct Q as [_ Q].
    assert (X : wflds addr (snd (scan fs is z)) fs vs = Ok b) by (apply (IH addr t); trivial; intros tg x I; apply (H tg); now right).
    destruct (scan fs is z) as [z' ks]. apply (fld_step false TgSkip e v vs fs ks addr [] b); [reflexivity|exact X].
  - intros e fs v vs a b M IH1 P IH2 addr t is z MM F H V Q. rest Q. destruct Q1 as [Q0 Q1].
    apply fld_step; [|now apply (IH2 addr t)]. cbn [CodecModel.dropped]. destruct (Z.eqb_spec (i_sz i) 0) as [Z0|Z0]; cbn [negb].
    + f_equal. symmetry. apply zero_bytes. apply (fixed_bytes e 0 true v); [apply Q0; destruct M0 as [<-|[M0 _]]; lia|exact M].
    + now apply IH1.
  - intros p e fs v vs a b M IH1 PF P IH2 addr t is z MM F H V Q. rest Q. destruct Q1 as (Q0 & Q1 & Q3). rewrite app_assoc.
    apply fld_step; [|now apply (IH2 addr t)]. cbn [CodecModel.dropped negb]. rewrite (IH1 addr HC V1 Q3). destruct (size_of_ok v e a M addr HC V1 Q1) as (y & -> & Y).
    unfold with_size. cbn [CodecModel.bind]. unfold CodecModel.with_size. destruct (Z.leb_spec 0 y); cbn [CodecModel.bind]; (rewrite prefix_ok; [|exact Q0|apply CodecProofs.zlen_nn|exact PF]) || idtac.
    + destruct Y as [Y| ->]; [lia|]. now rewrite prefix_ok.
    + reflexivity.
  - intros p e fs v vs n a b M IH1 A PF P IH2 addr t is z MM F H V Q. rest Q. destruct Q1 as (Q0 & Q1 & Q3). rewrite app_assoc.
    apply fld_step; [|now apply (IH2 addr t)]. cbn [CodecModel.dropped negb]. rewrite (IH1 addr HC V1 Q3). apply with_count_ok; trivial; [|now apply (amount_nn e v)]. now apply count_of_ok.
  - intros e fs v vs a b M IH1 P IH2 addr t is z MM F H V Q. rest Q. destruct Q1 as [Q0 Q1].
    apply fld_step; [|now apply (IH2 addr t)]. cbn [CodecModel.dropped]. destruct (Z.eqb_spec (i_sz i) 0) as [Z0|Z0]; cbn [negb].
    + f_equal. symmetry. apply zero_bytes. apply (fixed_bytes e 0 false v); [apply Q0; destruct M0 as [<-|[M0 _]]; lia|exact M].
    + now apply IH1.
Qed.

(** ** Write and WriteTail *)
Scheme says_ind3 := Minimality for says Sort Prop with all_say_ind3 := Minimality for all_say Sort Prop.
Lemma all_write_ok u l b : all_write u l b -> each (u_write u) l = Ok b.
Proof. induction 1 as [u|u v l a b W A IH]; [reflexivity|]. cbn [each]. rewrite W. cbn [CodecModel.bind]. now rewrite IH. Qed.
Lemma count32 {A} (l : list A) b : zlen l < 2 ^ 32 -> with_count P32 (Ok (zlen l)) (Ok b) = Ok (le_enc 4 (zlen l) ++ b).
Proof. intro L. apply (with_count_ok P32 _ b (zlen l)); [discriminate|reflexivity|apply CodecProofs.zlen_nn|exact L]. Qed.
Lemma Write_value t v auto b (P : dv -> Prop) : by_itself T t = false -> means T auto t v b -> vcodecs (VDyn t v) ->
  match T t with
      | SUser u => u_ptr u = false
      | SSl e =>
          match T e, v with
          | SIface, VSeq l => all P l
          | SUser u, _ => match u_kind u with KIface => True | _ => tidy T g t v end
          | _, _ => tidy T g t v
          end
      | _ => tidy T g t v
      end -> wr T g auto false t v = Ok b.
Proof.
  intros B M V Q. apply vcodecs_dyn in V. apply (proj1 wr_means); try tauto. unfold by_itself, is_iface in B. destruct (T t); try exact Q; try discriminate.
  destruct (T t0); try exact Q; [discriminate|]. destruct (u_kind u); [exact Q|discriminate|exact Q].
Qed.
Combined Scheme says_both from says_ind3, all_say_ind3.
Lemma Write_says_all :
  (forall i b, says T i b -> vcodecs i -> neat T g i -> Write T g i = Ok b) /\
  (forall l b, all_say T l b -> vcodecs (VSeq l) -> all (fun x => neat T g x) l -> each (fun x => Write T g x) l = Ok b).
Proof.
  apply (says_both T (fun i b => vcodecs i -> neat T g i -> Write T g i = Ok b) (fun l b => vcodecs (VSeq l) -> all (fun x => neat T g x) l -> each (fun x => Write T g x) l = Ok b)).
  - reflexivity.
  - intros t u v b E W V Q. cbn [Write neat] in *. rewrite E in *. now rewrite Q.
  - intros t e l b E1 E2 L A IH V Q. cbn [Write neat] in *. rewrite E1, E2 in *. apply vcodecs_dyn in V. rewrite IH; [|tauto|exact Q]. now apply count32.
  - intros t e u l b E1 E2 K L A V Q. cbn [Write]. rewrite E1, E2, K. rewrite (all_write_ok u l b A). now apply count32.
  - intros t v b B M V Q. pose proof (Write_value t v true b (fun x => neat T g x) B M V Q) as X. cbn [Write]. unfold by_itself, is_iface in B. destruct (T t); try exact X; [|discriminate].
    destruct (T t0); try exact X; [discriminate|]. destruct v; try exact X. destruct (u_kind u); [exact X|discriminate|exact X].
  - reflexivity.
  - intros i l a b S IH1 A IH2 V Q. apply vcodecs_cons in V. destruct V as [V1 V2], Q as [Q1 Q2]. cbn [each]. rewrite (IH1 V1 Q1). cbn [CodecModel.bind]. now rewrite (IH2 V2 Q2).
Qed.
Lemma WriteTail_says i b : says_tail T i b -> vcodecs i -> neat T g i -> WriteTail T g i = Ok b.
Proof.
  destruct 1 as [|t u v b E W|t e l b E1 E2 A|t e u l b E1 E2 K A|t v b B M]; intros V Q; cbn [WriteTail neat] in *.
  - reflexivity.
  - rewrite E in *. now rewrite Q.
  - rewrite E1, E2 in *. apply (proj2 Write_says_all); [exact A| |exact Q]. now apply vcodecs_dyn in V.
  - rewrite E1, E2, K. now apply all_write_ok.
  - pose proof (Write_value t v false b (fun x => neat T g x) B M V Q) as X. unfold by_itself, is_iface in B. destruct (T t); try exact X; [|discriminate].
    destruct (T t0); try exact X; [discriminate|]. destruct v; try exact X. destruct (u_kind u); [exact X|discriminate|exact X].
Qed.
End Lay.

(** ** the codecs found *)
Section Found.
Variable T : nat -> shape.
Lemma part_within t u : RegSpec.parts (prog T) t u -> within T t u.
Proof. apply parts_within. Qed.
Lemma history_codecs es t g : given T es t -> (forall u, within T t u -> g u = after T es u) -> codecs T g t.
Proof.
  intros G E.
  assert (W : forall u, within T t u -> RegSpec.parts (prog T) t u).
  { intros u W. induction W as [|u w W IH C]; [apply Relation_Operators.rt_refl|]. apply Relation_Operators.rt_trans with u; [exact IH|]. apply Relation_Operators.rt_step.
    apply (contains_part T); [|exact C]. exact (proj2 (given_sound (prog T) info (pend T) (fin T) i_sz (fun _ => eq_refl) es t u G IH)). }
  intros u U. destruct (given_sound (prog T) info (pend T) (fin T) i_sz (fun _ => eq_refl) es t u G (W u U)) as [(is & S1 & S2) S3].
  exists is. split; [rewrite (E u U); exact S1|]. split; [|exact S3].
  assert (X : forall w, In w (needs (prog T) u) -> g w = after T es w).
  { intros w I. apply E. apply within_part with u; [exact U|]. apply needs_part in I. now apply part_contains. }
  clear - S2 X. induction S2 as [|w i us is [H|[H1 H2]] F IH]; constructor; try (apply IH; intros x I; apply X; now right).
  - left. rewrite (X w (or_introl eq_refl)). exact H.
  - right. split; [exact H1|now apply part_within].
Qed.
Lemma found_codecs g i : found T g i -> vcodecs T g i.
Proof. intros F t H. destruct (F t H) as (es & G & E). now apply (history_codecs es t g). Qed.

(** ** the sizes the package keeps *)
Variable g : nat -> info.
Lemma const_nn t n : constcount T t n -> 0 <= n.
Proof. destruct 1; lia. Qed.
Lemma const_cnt t n : codec_ok T g t -> constcount T t n -> i_cnt (g t) = n.
Proof. intros C H. rewrite (cnt_of T g t C). now inversion H as [? k E|? fs E|? m e E]; rewrite E. Qed.
(** a type of constant size does not contain itself *)
Lemma fixed_part t z u : fixed T t z -> contains T t u -> exists y, fixed T u y.
Proof.
  intros F C. unfold contains in C. inversion F as [? k E|? n e y E F'|? fs y E F']; rewrite E in C; [destruct C|subst; now exists y|].
  destruct C as (tg & I & N). clear - F' I N. induction F' as [|e fs y F' IH|e fs x y FX F' IH|p e fs x y FX B F' IH|p e fs n x y FX CC NP B F' IH]; [destruct I|..]; (destruct I as [I|I]; [injection I as <- <-|now apply IH]);
  [congruence|now exists x..].
Qed.
Lemma fixed_acc t z : fixed T t z -> Acc (fun a b => contains T b a) t.
Proof.
  intro F. apply (fixed_ind2 T (fun t z => Acc (fun a b => contains T b a) t) (fun fs z => forall tg e, In (tg, e) fs -> tg <> TgSkip -> Acc (fun a b => contains T b a) e)) with (n := t) (z := z); try exact F; clear t z F.
  - intros t k E. constructor. intros u C. unfold contains in C. rewrite E in C. destruct C.
  - intros t n e z E F IH. constructor. intros u C. unfold contains in C. rewrite E in C. now subst.
  - intros t fs z E F IH. constructor. intros u C. unfold contains in C. rewrite E in C. destruct C as (tg & I & N). now apply (IH tg).
  - intros tg e [].
  - intros e fs z F IH tg x [I|I] N; [congruence|now apply (IH tg)].
  - intros e fs y z F IH G IH2 tg x [I|I] N; [now injection I as _ <-|now apply (IH2 tg)].
  - intros p e fs y z F IH B G IH2 tg x [I|I] N; [now injection I as _ <-|now apply (IH2 tg)].
  - intros p e fs n y z F IH C NP B G IH2 tg x [I|I] N; [now injection I as _ <-|now apply (IH2 tg)].
Qed.
Lemma acc_not_cyclic t : Acc (fun a b => contains T b a) t -> forall u, contains T t u -> ~ within T u t.
Proof.
  induction 1 as [t _ IH]. intros u C W.
  assert (Q : t = u \/ exists x, contains T u x /\ within T x t).
  { clear - W. induction W as [|x y C IHC D]; [now left|right]. destruct IHC as [->|(z & Z1 & Z2)]; [now exists y; split; [|constructor]|]. exists z. split; [exact Z1|]. now apply within_part with x. }
  destruct Q as [->|(x & Q1 & Q2)]; [exact (IH u C u C (within_self T u))|]. apply (IH u C x Q1). now apply within_part with t.
Qed.
Definition sizes (t : nat) : Prop := forall u, within T t u -> codec_ok T g u.
Lemma sizes_part t u : sizes t -> contains T t u -> sizes u.
Proof. intros S C w W. apply S. apply within_trans with u; [|exact W]. apply within_part with t; [constructor|exact C]. Qed.
Lemma codec_fixed t z : fixed T t z -> sizes t -> i_sz (g t) = z.
Proof.
  intro F.
  assert (NC : forall t z u, fixed T t z -> contains T t u -> ~ within T u t) by (intros t0 y u FY C; exact (acc_not_cyclic t0 (fixed_acc t0 y FY) u C)).
  apply (fixed_ind2 T (fun t z => sizes t -> i_sz (g t) = z)
    (fun fs z => forall is z0, (forall tg u, In (tg, u) fs -> tg <> TgSkip -> sizes u) -> map g (needf false fs) = is -> ~ In Fail (field_instrs false fs) ->
       0 <= z0 -> fst (scan fs is z0) = z0 + z)) with (n := t) (z := z); try exact F; clear t z F.
  - intros t k E S. destruct (S t (within_self _ t)) as (is & -> & _). unfold fin. now rewrite E.
  - intros t n e z E F IH S. destruct (S t (within_self _ t)) as (is & -> & M & _). assert (C : contains T t e) by (unfold contains; now rewrite E).
    pose proof (NC t _ e (fx_arr T t n e z E F) C) as N. unfold fin, needs, prog in *. rewrite E in *. cbn in M. inversion M as [|u i us is' [-> |[_ H]] M']; subst; [|contradiction].
    rewrite (IH (sizes_part t e S C)). cbn [i_sz]. pose proof (fixed_nn T e z F). destruct (Z.leb_spec 0 z); lia.
  - intros t fs z E F IH S. destruct (S t (within_self _ t)) as (is & -> & M & NF).
    assert (Q : map g (needs (prog T) t) = is).
    { assert (X : forall u, In u (needs (prog T) t) -> ~ within T u t) by (intros u U; apply (NC t z u (fx_struct T t fs z E F)); apply needs_part in U; now apply part_contains).
      clear - M X. induction M as [|u i us is [-> |[_ H]] M IHM]; [reflexivity| |destruct (X u (or_introl eq_refl) H)]. cbn [map]. f_equal. apply IHM. intros w W. apply X. now right. }
    unfold fin, needs, prog in *. rewrite E in *. specialize (IH is 0). destruct (scan fs is 0). cbn in *. apply IH; trivial; [|lia].
    intros tg u I N. apply (sizes_part t); [exact S|]. unfold contains. rewrite E. now exists tg.
  - intros is z0 S Q NF L. cbn. lia.
  - intros e fs z F IH is z0 S Q NF L. cbn [scan]. specialize (IH is z0 (fun tg u I => S tg u (or_intror I)) Q NF L). destruct (scan fs is z0). exact IH.
  - intros e fs y z F IH1 G IH2 is z0 S Q NF L. destruct (needf_cons TgAuto e fs ltac:(discriminate) NF) as [NE NF']. rewrite NE in Q. cbn [map] in Q. destruct is as [|j js]; [discriminate|]. injection Q as <- Q.
    pose proof (fixed_nn T e y F). cbn [scan CodecModel.prefix_sz CodecModel.dropped]. rewrite IH1 by (apply (S TgAuto); [now left|discriminate]). destruct (Z.leb_spec 0 z0); [|lia].
    specialize (IH2 js). destruct (Z.eqb_spec y 0).
    + specialize (IH2 (z0 + 0) (fun tg u I => S tg u (or_intror I)) Q NF' ltac:(lia)). destruct (scan fs js (z0 + 0)). cbn in *. lia.
    + destruct (Z.leb_spec 0 (z0 + 0)); [|lia]. specialize (IH2 (z0 + 0 + y) (fun tg u I => S tg u (or_intror I)) Q NF' ltac:(lia)). destruct (scan fs js (z0 + 0 + y)). cbn in *. lia.
  - intros p e fs y z F IH1 B G IH2 is z0 S Q NF L. destruct (needf_cons (TgSize p) e fs ltac:(discriminate) NF) as [NE NF']. rewrite NE in Q. cbn [map] in Q. destruct is as [|j js]; [discriminate|]. injection Q as <- Q.
    pose proof (fixed_nn T e y F) as Y. cbn [scan CodecModel.dropped]. rewrite IH1 by (apply (S (TgSize p)); [now left|discriminate]). destruct (Z.leb_spec 0 z0); [|lia].
    assert (P : CodecModel.prefix_sz (TgSize p) y (i_cnt (g e)) = Some (zlen (pre p y))).
    { rewrite CodecProofs.pre_len_ok. destruct p; try reflexivity. cbn. destruct (Z.ltb_spec y 0); [lia|]. f_equal. destruct (B eq_refl). apply CodecProofs.varsize_right; [lia|assumption]. }
    rewrite P. pose proof (CodecProofs.zlen_nn (pre p y)). destruct (Z.leb_spec 0 (z0 + zlen (pre p y))); [|lia].
    specialize (IH2 js (z0 + zlen (pre p y) + y) (fun tg u I => S tg u (or_intror I)) Q NF' ltac:(lia)). destruct (scan fs js (z0 + zlen (pre p y) + y)). cbn in *. lia.
  - intros p e fs n y z F IH1 C NP B G IH2 is z0 S Q NF L. destruct (needf_cons (TgCnt p) e fs ltac:(discriminate) NF) as [NE NF']. rewrite NE in Q. cbn [map] in Q. destruct is as [|j js]; [discriminate|]. injection Q as <- Q.
    assert (SE : sizes e) by (apply (S (TgCnt p)); [now left|discriminate]).
    pose proof (fixed_nn T e y F) as Y. pose proof (const_nn e n C) as CN. cbn [scan CodecModel.dropped]. rewrite (IH1 SE), (const_cnt e n (SE e (within_self _ e)) C). destruct (Z.leb_spec 0 z0); [|lia].
    assert (P : CodecModel.prefix_sz (TgCnt p) y n = Some (zlen (pre p n))).
    { rewrite CodecProofs.pre_len_ok. destruct p; try reflexivity; try congruence. cbn. destruct (Z.ltb_spec n 0); [lia|]. f_equal. destruct (B eq_refl). apply CodecProofs.varsize_right; [lia|assumption]. }
    rewrite P. pose proof (CodecProofs.zlen_nn (pre p n)). destruct (Z.leb_spec 0 (z0 + zlen (pre p n))); [|lia].
    specialize (IH2 js (z0 + zlen (pre p n) + y) (fun tg u I => S tg u (or_intror I)) Q NF' ltac:(lia)). destruct (scan fs js (z0 + zlen (pre p n) + y)). cbn in *. lia.
Qed.
Lemma codec_varies t : varies T t -> sizes t -> i_sz (g t) = -1.
Proof.
  induction 1 as [t L|t n e E V IH|t sk e fs E SK V IH]; intro S; destruct (S t (within_self _ t)) as (is & -> & M & NF).
  - unfold fin. now destruct (T t).
  - assert (C : contains T t e) by (unfold contains; now rewrite E). specialize (IH (sizes_part t e S C)). unfold fin, needs, prog in *. rewrite E in *. cbn in M.
    inversion M as [|u i us is' H M']; subst. assert (X : i_sz i = -1) by (destruct H as [-> |[H _]]; [exact IH|exact H]). now rewrite X.
  - assert (C : contains T t e) by (unfold contains; rewrite E; exists TgAuto; split; [apply in_or_app; right; now left|discriminate]). specialize (IH (sizes_part t e S C)).
    unfold fin, needs, prog in *. rewrite E in *. rewrite (skips_needs false) in M by trivial. cbn in M. inversion M as [|u i us is' H M']; subst.
    assert (X : i_sz i = -1) by (destruct H as [-> |[H _]]; [exact IH|exact H]). pose proof (scan_head sk e fs is' i SK X) as Y. destruct (scan _ (i :: is') 0). exact Y.
Qed.
End Found.
