(** Reading values of named types back. *)
From Coq Require Import ZArith List Bool Arith Lia Relations.
Import ListNotations.
From Verif Require Import Base PrimModel PrimSpec PrimProofs.
From Verif Require CodecModel CodecSpec CodecProofs CodecRead.
From Verif Require Import RegModel RegSpec RegProofs FillModel FillProofs RecWeak NomModel NomSpec NomProofs NomRec NomLaySpec NomLay NomRdModel NomRdSpec.
Open Scope Z_scope.

(** ** the primitive reads *)
Definition rd_fixed : forall k x rest al, kind_ok k x -> call (RFixed k) (at_bytes (layout k x ++ rest) al) = Ok (PrimModel.VNum x, at_bytes rest al) := CodecRead.call_fixed.
Definition rd_take : forall b rest al, take (zlen b) (at_bytes (b ++ rest) al) = Ok (b, at_bytes rest al) := CodecRead.take_ok.
Definition rd_bulk : forall k xs old rest al, Forall (kind_ok k) xs -> length old = length xs -> bulk k old (at_bytes (flat_map (layout k) xs ++ rest) al) = Ok (xs, at_bytes rest al) := CodecRead.bulk_ok.
Lemma rd_prefix p n b al : p <> CodecModel.P64 -> 0 <= n -> pfits p n -> rprefix p (at_bytes (pre p n ++ b) al) = Ok (n, at_bytes b al).
Proof. intros N P F. apply CodecRead.rprefix_ok; trivial. now destruct p. Qed.
Lemma rd_tail b al : call RTail (at_bytes b al) = Ok (PrimModel.VBytes b, at_bytes [] al).
Proof. reflexivity. Qed.
Lemma not_failed b al : failed (at_bytes b al) = false.
Proof. reflexivity. Qed.

Section Rd.
Variable T : nat -> shape.
Variable R : nat -> rshape.
Variable Z0 : nat -> dv.
Variable g : nat -> info.

(** ** codecs *)
Definition rnear (t u : nat) (i : info) : Prop := i = g u \/ (i_sz i = -1 /\ rwithin R u t).
Definition rcodec_ok (t : nat) : Prop := exists is, g t = rfin R t is /\ Forall2 (rnear t) (needs (rprog R) t) is /\ ~ In Fail (rprog R t).
Definition rcodecs (t : nat) : Prop := forall u, rwithin R t u -> rcodec_ok u.
Definition rvcodecs (v : dv) : Prop := forall t, holds t v -> rcodecs t.
Lemma rwithin_trans t u w : rwithin R t u -> rwithin R u w -> rwithin R t w.
Proof. intros A B. induction B as [|x y B IH C]; [exact A|now apply rwithin_part with x]. Qed.
Lemma rcodecs_self t : rcodecs t -> rcodec_ok t.
Proof. intro C. apply C. constructor. Qed.
Lemma rcodecs_part t u : rcodecs t -> rcontains R t u -> rcodecs u.
Proof. intros A C w W. apply A. apply rwithin_trans with u; [|exact W]. apply rwithin_part with t; [constructor|exact C]. Qed.
Lemma rvcodecs_ref v : rvcodecs (VRef v) -> rvcodecs v.
Proof. intros A t H. apply A. now constructor. Qed.
Lemma rvcodecs_dyn t v : rvcodecs (VDyn t v) -> rcodecs t /\ rvcodecs v.
Proof. intro A. split; [apply A; constructor|]. intros u H. apply A. now constructor. Qed.
Lemma rvcodecs_cons v l : rvcodecs (VSeq (v :: l)) -> rvcodecs v /\ rvcodecs (VSeq l).
Proof.
  intro A. split; [intros t H; apply A; apply holds_seq with v; [now left|exact H]|]. intros t H. apply A. inversion H as [| | |x ? X Y]; subst. apply holds_seq with x; [now right|exact Y].
Qed.
Lemma rcnt_of t : rcodec_ok t -> i_cnt (g t) = match R t with RNum _ | RStruct _ => 1 | RArr n _ => Z.of_nat n | _ => -1 end.
Proof. intros (is & -> & _). unfold rfin. destruct (R t); try reflexivity; [destruct is; reflexivity|]. destruct (scan fs is 0). reflexivity. Qed.

(** ** SetCount and SetSize *)
Lemma mk_slice_ok can e o m b al : can = true \/ length o = m -> exists al', mk_slice Z0 can e (VSeq o) (Z.of_nat m) (at_bytes b al) = Ok (VSeq (resliced Z0 e o m), at_bytes b al').
Proof.
  intro H. unfold mk_slice, resliced, zlen. cbn [seq]. destruct (Z.eqb_spec (Z.of_nat (length o)) (Z.of_nat m)) as [E|E]; destruct (Nat.eqb_spec (length o) m); try lia; [now exists al|].
  destruct (Z.ltb_spec (Z.of_nat m) 0); [lia|]. destruct H as [->|]; [|lia]. cbn [orb negb]. rewrite Nat2Z.id. now eexists.
Qed.
Lemma set_count1_flat fuel can t v n s : flat R t -> set_count R Z0 g (Datatypes.S fuel) can t v n s = set_count1 R Z0 g can t v n s.
Proof. intro F. cbn [set_count]. unfold flat in F. destruct (R t); try reflexivity; try contradiction. now rewrite F. Qed.
Lemma set_size1_flat fuel can t v n s : flat R t -> set_size R Z0 g (Datatypes.S fuel) can t v n s = set_size1 R Z0 g can t v n s.
Proof. intro F. cbn [set_size]. unfold flat in F. destruct (R t); try reflexivity; try contradiction. now rewrite F. Qed.
Ltac fuel1 N := exists (Datatypes.S N); intros fuel b al LF; destruct fuel as [|fuel]; [lia|].
Lemma set_count_ok can t old n x : recount R g Z0 can t old n x -> 0 <= n -> exists N, forall fuel b al, (N <= fuel)%nat ->
  exists al', set_count R Z0 g fuel can t old n (at_bytes b al) = Ok (x, true, at_bytes b al').
Proof.
  induction 1 as [can t old n F P E|can t e o m E C H|can t r f old n x E K C A F H|can t e E|t e w E|t e n x E N H IH|can t e w n x E N H IH|can t u w n x E N H IH]; intro PN.
  - fuel1 0%nat. exists al. rewrite set_count1_flat by exact F. unfold set_count1. rewrite E. destruct (Z.leb_spec 0 n); [|lia]. now rewrite Z.eqb_refl.
  - fuel1 0%nat. destruct (mk_slice_ok can e o m b al H) as [al' M]. exists al'. rewrite set_count1_flat by (unfold flat; now rewrite E). unfold set_count1.
    destruct (Z.leb_spec 0 (i_cnt (g t))); [lia|]. rewrite E, M. reflexivity.
  - fuel1 0%nat. exists al. rewrite set_count1_flat by (unfold flat; now rewrite E). unfold set_count1.
    destruct (Z.leb_spec 0 (i_cnt (g t))); [lia|]. rewrite E, F, A, H. reflexivity.
  - fuel1 0%nat. exists al. cbn [set_count]. now rewrite E.
  - fuel1 0%nat. exists al. cbn [set_count]. now rewrite E.
  - destruct (IH PN) as [M X]. fuel1 M. destruct (X fuel b al ltac:(lia)) as [al' Y]. exists al'. cbn [set_count]. rewrite E. destruct (Z.eqb_spec n 0); [lia|]. rewrite Y. reflexivity.
  - destruct (IH PN) as [M X]. fuel1 M. destruct (X fuel b al ltac:(lia)) as [al' Y]. exists al'. cbn [set_count]. rewrite E, Y. destruct (Z.eqb_spec n 0); [|reflexivity].
    destruct N as [N| ->]; [lia|reflexivity].
  - destruct (IH PN) as [M X]. fuel1 M. destruct (X fuel b al ltac:(lia)) as [al' Y]. exists al'. cbn [set_count]. rewrite E, Y. destruct (Z.eqb_spec n 0); [|reflexivity].
    destruct N as [N| ->]; [lia|reflexivity].
Qed.
Definition yes (y : bool) : setsz := if y then SzYes else SzNo.
Lemma set_size_ok can t old n x y : resize R g Z0 can t old n x y -> 0 <= n -> exists N, forall fuel b al, (N <= fuel)%nat ->
  exists al', set_size R Z0 g fuel can t old n (at_bytes b al) = Ok (x, yes y, at_bytes b al').
Proof.
  induction 1 as [can t old n F P E|can t old n F E G|can t e o n m E S G P Q H|can t r f old n x y E K A S G F H|can t e E|t e w E|t e n x y E N H IH|can t e w n x y E N H IH|can t E S G|can t u w n x y E N H IH]; intro PN.
  - fuel1 0%nat. exists al. rewrite set_size1_flat by exact F. unfold set_size1. rewrite E. destruct (Z.leb_spec 0 n); [|lia]. now rewrite Z.eqb_refl.
  - fuel1 0%nat. exists al. rewrite set_size1_flat by exact F. unfold set_size1. destruct (Z.leb_spec 0 (i_sz (g t))); [lia|]. now rewrite G.
  - fuel1 0%nat. destruct (mk_slice_ok can e o m b al H) as [al' M]. exists al'. rewrite set_size1_flat by (unfold flat; now rewrite E). unfold set_size1.
    destruct (Z.leb_spec 0 (i_sz (g t))); [lia|]. rewrite G, E, Q, Z.quot_mul by lia. rewrite M. reflexivity.
  - fuel1 0%nat. exists al. rewrite set_size1_flat by (unfold flat; now rewrite E). unfold set_size1.
    destruct (Z.leb_spec 0 (i_sz (g t))); [lia|]. rewrite G, E, F, A, H. reflexivity.
  - fuel1 0%nat. exists al. cbn [set_size]. now rewrite E.
  - fuel1 0%nat. exists al. cbn [set_size]. now rewrite E.
  - destruct (IH PN) as [M X]. fuel1 M. destruct (X fuel b al ltac:(lia)) as [al' Y]. exists al'. cbn [set_size]. rewrite E. destruct (Z.eqb_spec n 0); [lia|]. rewrite Y. reflexivity.
  - destruct (IH PN) as [M X]. fuel1 M. destruct (X fuel b al ltac:(lia)) as [al' Y]. exists al'. cbn [set_size]. rewrite E, Y. destruct (Z.eqb_spec n 0); [|reflexivity].
    destruct N as [N| ->]; [lia|reflexivity].
  - fuel1 0%nat. exists al. cbn [set_size]. rewrite E. cbn [Z.eqb]. unfold set_size1. destruct (Z.leb_spec 0 (i_sz (g t))); [lia|]. now rewrite G.
  - destruct (IH PN) as [M X]. fuel1 M. destruct (X fuel b al ltac:(lia)) as [al' Y]. exists al'. cbn [set_size]. rewrite E, Y. destruct (Z.eqb_spec n 0); [|reflexivity].
    destruct N as [N| ->]; [lia|reflexivity].
Qed.

(** ** WithCount and WithSize *)
Definition reads (f : dv -> st -> out (dv * st)) (old x : dv) (b rest : list Z) : Prop := forall al, exists al', f old (at_bytes (b ++ rest) al) = Ok (x, at_bytes rest al').
Lemma rwith_count_ok fuel f p can t old x y n b rest : p <> CodecModel.P64 -> 0 <= n -> pfits p n -> into R can t = None ->
  (forall b al, exists al', set_count R Z0 g fuel can t old n (at_bytes b al) = Ok (x, true, at_bytes b al')) -> reads f x y b rest ->
  reads (rwith_count R Z0 g fuel f p can t) old y (pre p n ++ b) rest.
Proof.
  intros NP P F IN S D al. unfold rwith_count. rewrite not_failed, <- app_assoc, rd_prefix by assumption. cbn [CodecModel.bind]. rewrite IN. destruct (S (b ++ rest) al) as [al' ->]. cbn [CodecModel.bind]. apply D.
Qed.
Lemma rwith_size_ok fuel f h p can t old x y z b rest : p <> CodecModel.P64 -> pfits p (zlen b) -> into R can t = None ->
  (forall b' al, exists al', set_size R Z0 g fuel can t old (zlen b) (at_bytes b' al) = Ok (x, yes y, at_bytes b' al')) ->
  (if y then reads f x z b rest else reads h x z b []) ->
  reads (rwith_size R Z0 g fuel f h p can t) old z (pre p (zlen b) ++ b) rest.
Proof.
  intros NP F IN S D al. unfold rwith_size. rewrite not_failed, <- app_assoc, rd_prefix by (trivial; apply CodecProofs.zlen_nn). cbn [CodecModel.bind]. rewrite IN. destruct (S (b ++ rest) al) as [al' ->]. cbn [CodecModel.bind].
  destruct y; cbn [yes]; [apply D|]. rewrite rd_take. cbn [CodecModel.bind at_bytes CodecModel.s_rd CodecModel.s_alloc r_err]. destruct (D al') as [al2 E]. rewrite app_nil_r in E. unfold at_bytes in E. rewrite E.
  cbn [CodecModel.bind CodecModel.s_rd CodecModel.s_alloc r_err r_body]. exists al2. reflexivity.
Qed.
(** strings and bytes *)
Lemma into_none can t : is_text R t = false -> into R can t = None.
Proof. unfold is_text, into. destruct (R t); try reflexivity; try discriminate. destruct (R t0); try reflexivity. now destruct k. Qed.
Lemma nums_bytes e l b : T e = SNum U8 -> items T e l b -> b = map vnum l /\ l = map VNum b /\ Forall (kind_ok U8) (map vnum l).
Proof.
  intros E I. destruct (NomLay.nums T e U8 l b E I) as [F ->]. split; [now apply CodecProofs.bytes_u8|]. split; [|exact F]. rewrite CodecProofs.bytes_u8 by exact F.
  clear F. induction I as [e|e v l a b M I IH]; [reflexivity|]. cbn [map]. rewrite <- (IH E). inversion M; subst; try congruence. reflexivity.
Qed.
Lemma text_ok_reads can t v old b : is_text R t = true -> text_ok T R can t v old -> means T false t v b ->
  exists f, into R can t = Some f /\ (amount T t v (zlen b)) /\ forall rest al, exists al', f old (zlen b) (at_bytes (b ++ rest) al) = Ok (v, at_bytes rest al').
Proof.
  unfold is_text, text_ok, into. intro TX. destruct (R t) eqn:E; try contradiction.
  - intros [ET ->] M. eexists. split; [reflexivity|]. inversion M; subst; try congruence. cbn [count4 app]. split; [now apply am_str|]. intros rest al. rewrite rd_take. now exists al.
  - intros (ET & EE & O) M. destruct v as [| |l| | |]; try contradiction. destruct old as [| |o| | |]; try contradiction.
    assert (Q : items T t0 l b /\ zlen l < 2 ^ 32) by (inversion M; subst; try congruence; split; trivial; now replace t0 with e by congruence).
    destruct Q as [I L]. destruct (nums_bytes t0 l b EE I) as (B1 & B2 & B3).
    assert (ZL : zlen b = zlen l) by (rewrite B1; unfold zlen; now rewrite map_length).
    destruct (R t0) as [k| | | | | | | |] eqn:E0; try discriminate. destruct k; try discriminate. eexists. split; [reflexivity|]. split; [rewrite ZL; now apply am_sl with t0|].
    intros rest al. destruct can.
    + rewrite rd_take. cbn [CodecModel.bind]. exists al. now rewrite <- B2.
    + destruct O as [O|O]; [discriminate|]. rewrite ZL. cbn [seq]. unfold zlen at 1 2. rewrite O, Z.eqb_refl. rewrite <- (CodecProofs.bytes_u8 (map vnum l) B3) in B1. rewrite B1, (rd_bulk U8 (map vnum l)) by (trivial; now rewrite !map_length).
      cbn [CodecModel.bind]. exists al. rewrite B1, CodecProofs.bytes_u8 in B2 by exact B3. now rewrite <- B2.
Qed.

(** ** the readers *)
Definition Rm a t v b : Prop := forall m can old, ready T R g Z0 m can a t v old -> rcodecs t -> rvcodecs v ->
  exists N x, alike T t x v /\ forall fuel rest, (N <= fuel)%nat -> (m = Tail -> rest = []) -> reads (rd R Z0 g fuel m can t) old x b rest.
Definition Ri e l b : Prop := rcodecs e -> rvcodecs (VSeq l) ->
  (forall can os, all2 (fun x y => ready T R g Z0 Auto can true e x y) l os -> exists N xs, alikes T e xs l /\
     forall fuel rest al, (N <= fuel)%nat -> exists al', dec_list (rd R Z0 g fuel Auto can e) os (at_bytes (b ++ rest) al) = Ok (xs, at_bytes rest al')) /\
  (forall os, (forall x b, In x l -> means T true e x b -> b <> []) -> all2 (fun x y => ready T R g Z0 Auto true true e x y) l (padded (Z0 e) (length l) os) ->
     (length l <= length b)%nat /\ exists N xs, alikes T e xs l /\
     forall fuel lf al, (N <= fuel)%nat -> (length l < lf)%nat -> exists al', tail_loop (Z0 e) (rd R Z0 g fuel Auto true e) lf os (at_bytes b al) = Ok (xs, at_bytes [] al')).
Definition dflds (fuel : nat) (m : mode) (can : bool) : list bool -> list (tag * nat) -> list dv -> st -> out (list dv * st) :=
  fix flds (ks : list bool) (fs : list (tag * nat)) (vs : list dv) (s : st) {struct vs} : out (list dv * st) :=
                   match ks, fs, vs with
                   | [], [], [] => Ok ([], s)
                   | k :: ks, (tg, e) :: fs, v :: vs =>
                       do! (x, s) <- (if k then match tg with
                                                | CodecModel.TgSkip => Ok (v, s)
                                                | CodecModel.TgSize p => rwith_size R Z0 g fuel (rd R Z0 g fuel Fixed can e) (rd R Z0 g fuel Tail can e) p can e v s
                                                | CodecModel.TgCnt p => rwith_count R Z0 g fuel (rd R Z0 g fuel Fixed can e) p can e v s
                                                | CodecModel.TgNo => rd R Z0 g fuel match m with CodecModel.Tail => Tail | _ => Fixed end can e v s
                                                | _ => rd R Z0 g fuel Auto can e v s
                                                end
                                      else Ok (v, s));
                       do! (xs, s) <- flds ks fs vs s; Ok (x :: xs, s)
                   | _, _, _ => Panic
                   end.
Definition rflds (m : mode) (can : bool) : list (tag * nat) -> list dv -> list dv -> Prop :=
  fix flds (fs : list (tag * nat)) (vs os : list dv) {struct vs} : Prop :=
             match fs, vs, os with
             | [], [], [] => True
             | (tg, e) :: fs, v :: vs, o :: os =>
                 match tg with
                 | CodecModel.TgSkip => True
                 | CodecModel.TgSize p => p <> CodecModel.P64 /\
                     if is_text R e then text_ok T R can e v o
                     else forall b, means T false e v b -> exists x y, resize R g Z0 can e o (zlen b) x y /\ ready T R g Z0 (if y : bool then Fixed else Tail) can false e v x
                 | CodecModel.TgCnt p => p <> CodecModel.P64 /\
                     if is_text R e then text_ok T R can e v o
                     else forall n, amount T e v n -> exists x, recount R g Z0 can e o n x /\ ready T R g Z0 Fixed can false e v x
                 | CodecModel.TgNo => (i_sz (g e) = 0 -> fixed T e 0 /\ alike T e o v) /\ ready T R g Z0 match m with CodecModel.Tail => Tail | _ => Fixed end can false e v o
                 | _ => (i_sz (g e) = 0 -> fixed T e 0 /\ alike T e o v) /\ ready T R g Z0 Auto can true e v o
                 end /\ flds fs vs os
             | _, _, _ => False
             end.
Definition rhas_codecs (fs : list (tag * nat)) : Prop := forall tg e, In (tg, e) fs -> tg <> TgSkip -> rcodecs e.
Definition Rp fs vs b : Prop := forall m can t is z os, Forall2 (rnear t) (needf false fs) is -> ~ In Fail (field_instrs false fs) ->
  rhas_codecs fs -> rvcodecs (VSeq vs) -> rflds m can fs vs os -> exists N xs, alike_fields T fs xs vs /\
  forall fuel rest al, (N <= fuel)%nat -> (m = Tail -> rest = []) -> exists al', dflds fuel m can (snd (scan fs is z)) fs os (at_bytes (b ++ rest) al) = Ok (xs, at_bytes rest al').

(** types with IRead *)
Lemma ready_shape m can a t v old : ready T R g Z0 m can a t v old -> same_shape (T t) (R t).
Proof. destruct v; cbn [ready]; tauto. Qed.
Lemma user_ready m can a t r v old : R t = RUser r -> ready T R g Z0 m can a t v old ->
      rno_addr r can = false /\
      match m with
      | CodecModel.Fixed => undone T a false (ru_read r) t v old
      | CodecModel.Auto =>
          match cntset r with
          | Some f => ru_kind r = KOther /\ a = true /\ (exists u, T t = SUser u /\ u_count u <> None) /\
                      forall n, amount T t v n -> exists x, f old n = Ok (x, true) /\ undone T false false (ru_read r) t v x
          | None => undone T a false (ru_read r) t v old
          end
      | CodecModel.Tail => match ru_tail r with Some f => undone T a true f t v old | None => undone T a true (ru_read r) t v old end
      end.
Proof. intros E. destruct v; cbn [ready]; rewrite E; tauto. Qed.
Lemma rd_user fuel m can t r v s : R t = RUser r -> rno_addr r can = false -> rd R Z0 g (Datatypes.S fuel) m can t v s =
  match m with
  | CodecModel.Fixed => ru_read r v s
  | CodecModel.Auto => match cntset r with Some _ => rwith_count R Z0 g fuel (fun v s => ru_read r v s) P32 can t v s | None => ru_read r v s end
  | CodecModel.Tail => match ru_tail r with Some f => f v s | None => ru_read r v s end
  end.
Proof. intros E A. cbn [rd]. rewrite E, A. reflexivity. Qed.
Ltac fuel2 N := intros fuel rest LF LT; destruct fuel as [|fuel]; [lia|].
Lemma user_case a t r v b : R t = RUser r -> means T a t v b -> Rm a t v b.
Proof.
  intros E M m can old RD C V. destruct (user_ready m can a t r v old E RD) as [A U]. 
  assert (P : forall f x, undone T a (match m with CodecModel.Tail => true | _ => false end) f t v x -> forall rest, (m = Tail -> rest = []) -> reads f x v b rest).
  { intros f x H rest LT al. apply H; [exact M|]. intro Q. apply LT. now destruct m. }
  destruct m.
  - exists 1%nat, v. split; [constructor|]. fuel2 0%nat. intro al. rewrite (rd_user fuel Fixed can t r _ _ E A). now apply P.
  - destruct (cntset r) as [f|] eqn:CS.
    + destruct U as (K & -> & (u & TU & UC) & H). inversion M as [| | | | | | | | |? ? ? ? ? E2 B2|? ? ? n b' E2 UC' W AM L]; subst; try congruence.
      { rewrite TU in E2. injection E2 as <-. destruct (u_count u); [discriminate|congruence]. }
      destruct (H n AM) as (x & X1 & X2). pose proof (amount_nn T t v n AM) as NN.
      exists 2%nat, v. split; [constructor|]. fuel2 0%nat. intro al. rewrite (rd_user fuel Auto can t r _ _ E A), CS.
      apply (rwith_count_ok fuel (fun v s => ru_read r v s) P32 can t old x v n b' rest); trivial; [discriminate|unfold into; now rewrite E| |].
      * intros b al'. destruct (set_count_ok can t old n x) as [N Y]; [|exact NN|].
        { apply (rc_user R g Z0 can t r f); trivial. rewrite (rcnt_of t (rcodecs_self t C)), E. lia. }
        exists al'. destruct fuel as [|fuel]; [lia|]. rewrite set_count1_flat by (unfold flat; now rewrite E). unfold set_count1. rewrite (rcnt_of t (rcodecs_self t C)), E, CS, A, X1. reflexivity.
      * intro al'. apply X2; [|discriminate]. apply me_user with u0; trivial.
    + exists 1%nat, v. split; [constructor|]. fuel2 0%nat. intro al. rewrite (rd_user fuel Auto can t r _ _ E A), CS. now apply P.
  - exists 1%nat, v. split; [constructor|]. fuel2 0%nat. intro al. rewrite (rd_user fuel Tail can t r _ _ E A). destruct (ru_tail r); now apply P.
Qed.

(** elements *)
Lemma num_items e k l b : T e = SNum k -> items T e l b -> l = map VNum (map vnum l).
Proof. intros E I. induction I as [e|e v l a b M I IH]; [reflexivity|]. cbn [map]. rewrite <- (IH E). inversion M; subst; try congruence. reflexivity. Qed.
Lemma alikes_refl e l : alikes T e l l.
Proof. induction l; constructor; trivial. constructor. Qed.
Lemma all2_length P l m : all2 P l m -> length l = length m.
Proof. revert m. induction l as [|x l IH]; intros [|y m]; cbn [all2 length]; try contradiction; [reflexivity|]. intros [_ H]. now rewrite (IH m H). Qed.
Definition relems (fuel : nat) (can : bool) (e : nat) (v : dv) (s : st) : out (dv * st) :=
        match R e with
        | RNum k => match seq v with
                    | [] => Ok (v, s)
                    | l => if can then do! (b, s) <- bulk k (map vnum l) s; Ok (VSeq (map VNum b), s) else Panic
                    end
        | _ => do! (l, s) <- dec_list (rd R Z0 g fuel Auto can e) (seq v) s; Ok (VSeq l, s)
        end.
Lemma relems_ok can e l b os : items T e l b -> Ri e l b -> rcodecs e -> rvcodecs (VSeq l) -> all2 (fun x y => ready T R g Z0 Auto can true e x y) l os ->
  exists N xs, alikes T e xs l /\ forall fuel rest, (N <= fuel)%nat -> reads (relems fuel can e) (VSeq os) (VSeq xs) b rest.
Proof.
  intros I IH C V A. destruct (match R e with RNum _ => true | _ => false end) eqn:NM.
  - destruct (R e) as [k| | | | | | | |] eqn:E; try discriminate. exists 0%nat, l. split; [apply alikes_refl|]. intros fuel rest _ al. unfold relems. rewrite E. cbn [seq]. pose proof (all2_length _ _ _ A) as L.
    destruct os as [|o os].
    + destruct l; [|discriminate]. inversion I; subst. now exists al.
    + destruct l as [|x l]; [discriminate|]. cbn [all2] in A. destruct A as [A _].
      assert (Q : T e = SNum k /\ can = true). { destruct x; cbn [ready] in A; rewrite E in A; destruct A as [A1 A2]; try contradiction. now split. }
      destruct Q as [TE ->]. destruct (NomLay.nums T e k _ b TE I) as [F ->]. rewrite (rd_bulk k (map vnum (x :: l))) by (trivial; rewrite !map_length; now symmetry).
      cbn [CodecModel.bind]. exists al. now rewrite <- (num_items e k (x :: l) _ TE I).
  - destruct (proj1 (IH C V) can os A) as (N & xs & AL & H). exists N, xs. split; [exact AL|]. intros fuel rest LF al. destruct (H fuel rest al LF) as [al' X]. exists al'. unfold relems. cbn [seq]. rewrite X.
    destruct (R e); try reflexivity. discriminate.
Qed.
Lemma text_means e l b : T e = SNum U8 -> items T e l b -> zlen b = zlen l.
Proof. intros TE I. destruct (nums_bytes e l b TE I) as (-> & _). unfold zlen. now rewrite map_length. Qed.
Lemma sz_user t r : rcodec_ok t -> R t = RUser r -> i_sz (g t) = -1.
Proof. intros (is & -> & _) E. unfold rfin. now rewrite E. Qed.
Ltac shape RD SS E t ER := pose proof (ready_shape _ _ _ _ _ _ RD) as SS; rewrite E in SS; destruct (R t) eqn:ER; cbn [same_shape] in SS; try discriminate SS; try (exfalso; exact SS).
Ltac user MK ER RD C V := match type of ER with _ = RUser _ => exact (user_case _ _ _ _ _ ER MK _ _ _ RD C V) | _ => idtac end.
Lemma rcontains_elem t e : R t = RSl e \/ R t = RPtr e \/ (exists n, R t = RArr n e) -> rcontains R t e.
Proof. unfold rcontains. intros [-> |[-> |[n ->]]]; reflexivity. Qed.

Theorem rd_means : (forall a t v b, means T a t v b -> Rm a t v b) /\ (forall e l b, items T e l b -> Ri e l b) /\ (forall fs vs b, parts T fs vs b -> Rp fs vs b).
Proof.
  apply (means_all T Rm Ri Rp).
  - (* numbers *)
    intros a t k x E K m can old RD C V. shape RD SS E t ER; user (me_num T a t k x E K) ER RD C V. injection SS as ->. cbn [ready] in RD. rewrite ER in RD. destruct RD as [_ ->].
    exists 1%nat, (VNum x). split; [constructor|]. fuel2 0%nat. intro al. exists al. cbn [rd]. rewrite ER, rd_fixed by exact K. reflexivity.
  - (* strings *)
    intros a t l E L m can old RD C V. shape RD SS E t ER; user (me_str T a t l E L) ER RD C V. cbn [ready] in RD. rewrite ER in RD. destruct RD as (_ & -> & ->).
    exists 1%nat, (VStr l). split; [constructor|]. fuel2 0%nat. intro al. exists al. cbn [rd]. rewrite ER. destruct m; cbn [count4].
    1,2: unfold rwith_count; rewrite not_failed, <- app_assoc, (rd_prefix P32 (zlen l)) by (trivial; try discriminate; apply CodecProofs.zlen_nn); cbn [CodecModel.bind]; unfold into; rewrite ER, rd_take; reflexivity.
    rewrite (LT eq_refl), rd_tail. cbn [app CodecModel.bind]. now rewrite app_nil_r.
  - (* arrays *)
    intros a t n e l b E L I IH m can old RD C V. shape RD SS E t ER; user (me_arr T a t n e l b E L I) ER RD C V. injection SS as <- <-. cbn [ready] in RD. rewrite ER in RD. destruct RD as [_ RD]. destruct old as [| |os| | |]; try contradiction.
    assert (CE : rcodecs e) by (apply (rcodecs_part t); [exact C|apply rcontains_elem; right; right; now exists n]).
    destruct (relems_ok can e l b os I IH CE V RD) as (N & xs & AL & H). exists (Datatypes.S N), (VSeq xs). split; [now apply ak_arr with n e|]. fuel2 0%nat. intro al.
    destruct (H fuel rest ltac:(lia) al) as [al' X]. exists al'. cbn [rd]. rewrite ER. exact X.
  - (* slices *)
    intros a t e l b E L I IH m can old RD C V. shape RD SS E t ER; user (me_sl T a t e l b E L I) ER RD C V. injection SS as <-. cbn [ready] in RD. rewrite ER in RD. destruct RD as [_ RD]. destruct old as [| |os| | |]; try contradiction.
    assert (CE : rcodecs e) by (apply (rcodecs_part t); [exact C|apply rcontains_elem; now left]).
    destruct m.
    + destruct RD as [-> RD]. destruct (relems_ok true e l b os I IH CE V RD) as (N & xs & AL & H). exists (Datatypes.S N), (VSeq xs). split; [now apply ak_sl with e|]. fuel2 0%nat. intro al.
      destruct (H fuel rest ltac:(lia) al) as [al' X]. exists al'. cbn [rd]. rewrite ER. exact X.
    + destruct RD as (-> & CN & RD). destruct (is_text R t) eqn:TX.
      * assert (TE : T e = SNum U8 \/ l = []).
        { unfold is_text in TX. rewrite ER in TX. destruct l as [|x l]; [now right|left]. destruct (resliced Z0 e os (length (x :: l))) as [|y ys]; [contradiction|]. cbn [all2] in RD. destruct RD as [RD _].
          apply ready_shape in RD. destruct (R e) as [k| | | | | | | |]; try discriminate. destruct k; try discriminate. exact RD. }
        assert (BL : b = map vnum l /\ l = map VNum b /\ zlen b = zlen l).
        { destruct TE as [TE|Q]; [destruct (nums_bytes e l b TE I) as (B1 & B2 & _); split; [exact B1|split; [exact B2|now apply (text_means e)]]|]. subst l. inversion I; subst. now repeat split. }
        destruct BL as (B1 & B2 & B3). exists 1%nat, (VSeq l). split; [constructor|]. fuel2 0%nat. intro al. cbn [rd]. rewrite ER. unfold rwith_count. cbn [count4]. rewrite not_failed, <- app_assoc, (rd_prefix P32 (zlen l)) by (trivial; try discriminate; apply CodecProofs.zlen_nn).
        cbn [CodecModel.bind]. unfold is_text in TX. unfold into. rewrite ER in *. destruct (R e) as [k| | | | | | | |] eqn:EE; try discriminate. destruct k; try discriminate.
        destruct can; [rewrite <- B3, rd_take; cbn [CodecModel.bind]; exists al; now rewrite <- B2|]. destruct CN as [CN|CN]; [discriminate|]. cbn [seq]. unfold zlen at 1 2. rewrite CN, Z.eqb_refl.
        destruct l as [|x l].
        { destruct os; [|discriminate]. cbn in B1. subst b. now exists al. }
        destruct TE as [TE|]; [|discriminate]. destruct (NomLay.nums T e U8 _ b TE I) as [F B4]. rewrite B4, (rd_bulk U8 (map vnum (x :: l))) by (trivial; rewrite !map_length; exact CN).
        cbn [CodecModel.bind]. exists al. now rewrite <- (num_items e U8 (x :: l) _ TE I).
      * destruct (relems_ok true e l b _ I IH CE V RD) as (N & xs & AL & H). exists (Datatypes.S (Datatypes.S N)), (VSeq xs). split; [now apply ak_sl with e|]. fuel2 0%nat. cbn [count4].
        cut (reads (rwith_count R Z0 g fuel (rd R Z0 g fuel Fixed can t) P32 can t) (VSeq os) (VSeq xs) (pre P32 (zlen l) ++ b) rest).
        { intros X al. cbn [rd]. rewrite ER. apply X. }
        apply rwith_count_ok with (VSeq (resliced Z0 e os (length l))); trivial; [discriminate|apply CodecProofs.zlen_nn|now apply into_none| |].
        -- intros b' al. unfold zlen. destruct (mk_slice_ok can e os (length l) b' al CN) as [al' Y]. exists al'. destruct fuel as [|fuel]; [lia|]. rewrite set_count1_flat by (unfold flat; now rewrite ER).
           unfold set_count1. rewrite (rcnt_of t (rcodecs_self t C)), ER. cbn [Z.leb Z.compare]. rewrite Y. reflexivity.
        -- intro al. destruct fuel as [|fuel]; [lia|]. destruct (H fuel rest ltac:(lia) al) as [al' X]. exists al'. cbn [rd]. rewrite ER. exact X.
    + destruct RD as [-> RD]. cbn [count4 app]. destruct can.
      * destruct RD as (NM & NE & RD). destruct (proj2 (IH CE V) os NE RD) as (LB & N & xs & AL & H).
        destruct (match R e with RNum _ => true | _ => false end) eqn:B.
        -- destruct (R e) as [k| | | | | | | |] eqn:EE; try discriminate. destruct (NM k eq_refl) as [-> TE]. destruct (nums_bytes e l b TE I) as (B1 & B2 & _).
           exists 1%nat, (VSeq l). split; [constructor|]. fuel2 0%nat. intro al. cbn [rd]. rewrite ER, EE, not_failed, (LT eq_refl), rd_tail, app_nil_r. cbn [CodecModel.bind]. exists al. cbn [CodecModel.nums]. now rewrite <- B2.
        -- exists (Datatypes.S N), (VSeq xs). split; [now apply ak_sl with e|]. fuel2 0%nat. intro al. rewrite (LT eq_refl), app_nil_r. cbn [rd]. rewrite ER. cbn [seq at_bytes CodecModel.s_rd r_body].
           destruct (H fuel (length b + length os + 1)%nat al ltac:(lia) ltac:(lia)) as [al' X]. exists al'. fold (at_bytes b al). destruct (R e); try discriminate; rewrite X; reflexivity.
      * destruct (relems_ok true e l b os I IH CE V RD) as (N & xs & AL & H). exists (Datatypes.S N), (VSeq xs). split; [now apply ak_sl with e|]. fuel2 0%nat. intro al.
        destruct (H fuel rest ltac:(lia) al) as [al' X]. exists al'. cbn [rd]. rewrite ER. unfold relems in X. cbn [seq] in *. rewrite not_failed. destruct (R e); exact X.
  - (* pointers *)
    intros a t e w b E M IH m can old RD C V. shape RD SS E t ER; user (me_ptr T a t e w b E M) ER RD C V. injection SS as <-. cbn [ready] in RD. rewrite ER in RD. destruct RD as [_ RD]. destruct old as [| | | |o|]; try contradiction. destruct RD as [NT RD].
    assert (CE : rcodecs e) by (apply (rcodecs_part t); [exact C|apply rcontains_elem; right; now left]).
    destruct (IH Fixed true o RD CE (rvcodecs_ref w V)) as (N & x & AL & H). exists (Datatypes.S N), (VRef x). split; [now apply ak_ptr with e|]. fuel2 0%nat. intro al.
    destruct (H fuel rest ltac:(lia) ltac:(discriminate) al) as [al' X]. exists al'. cbn [rd]. rewrite ER. destruct m; try contradiction; rewrite X; reflexivity.
  - intros t e E m can old RD C V. shape RD SS E t ER; user (me_nil T t e E) ER RD C V. injection SS as <-. cbn [ready] in RD. rewrite ER in RD. destruct RD as [_ RD]. destruct old; try contradiction.
    exists 1%nat, VNil. split; [constructor|]. fuel2 0%nat. intro al. exists al. cbn [rd]. rewrite ER. now destruct m.
  - (* structs *)
    intros a t fs vs b E P IH m can old RD C V. shape RD SS E t ER; user (me_struct T a t fs vs b E P) ER RD C V. injection SS as <-. cbn [ready] in RD. rewrite ER in RD. destruct RD as [_ RD]. destruct old as [| |os| | |]; try contradiction.
    destruct (rcodecs_self t C) as (is & G & F2 & NF). unfold needs, rprog, rfin in *. rewrite ER in *.
    destruct (IH m can t is 0 os F2 NF) as (N & xs & AL & H); trivial.
    { intros tg e I NS. apply (rcodecs_part t); [exact C|]. unfold rcontains. rewrite ER. now exists tg. }
    exists (Datatypes.S N), (VSeq xs). split; [now apply ak_struct with fs|]. fuel2 0%nat. intro al. destruct (H fuel rest al ltac:(lia) LT) as [al' X]. exists al'. cbn [rd]. rewrite ER.
    change (do! (xs, s) <- dflds fuel m can (i_keep (g t)) fs os (at_bytes (b ++ rest) al); Ok (VSeq xs, s) = Ok (VSeq xs, at_bytes rest al')). rewrite G. destruct (scan fs is 0) as [z ks]. cbn [snd i_keep] in *. rewrite X. reflexivity.
  - intros a t E m can old RD C V. shape RD SS E t ER; user (me_niliface T a t E) ER RD C V. cbn [ready] in RD. rewrite ER in RD. destruct RD as [_ RD]. destruct old; try contradiction.
    exists 1%nat, VNil. split; [constructor|]. fuel2 0%nat. intro al. exists al. cbn [rd]. now rewrite ER.
  - intros a t u w b E M IH m can old RD C V. shape RD SS E t ER; user (me_iface T a t u w b E M) ER RD C V. cbn [ready] in RD. rewrite ER in RD. destruct RD as [_ RD]. destruct old as [| | | | |u' o]; try contradiction. destruct RD as [-> RD].
    apply rvcodecs_dyn in V. destruct V as [CU VW]. destruct (IH _ false o RD CU VW) as (N & x & AL & H). exists (Datatypes.S N), (VDyn u x). split; [now apply ak_iface|]. fuel2 0%nat. intro al.
    assert (LT' : match m with CodecModel.Tail => Tail | _ => Fixed end = Tail -> rest = []) by (destruct m; try discriminate; trivial).
    destruct (H fuel rest ltac:(lia) LT' al) as [al' X]. exists al'. cbn [rd]. rewrite ER, X. reflexivity.
  - intros a t u v b E UC W m can old RD C V. shape RD SS E t ER. exact (user_case _ _ _ _ _ ER (me_user T a t u v b E UC W) _ _ _ RD C V).
  - intros t u v n b E UC W AM L m can old RD C V. shape RD SS E t ER. exact (user_case _ _ _ _ _ ER (me_counted T t u v n b E UC W AM L) _ _ _ RD C V).
  - (* no elements *)
    intros e C V. split.
    + intros can [|o os] A; [|destruct A]. exists 0%nat, []. split; [constructor|]. intros fuel rest al _. exists al. reflexivity.
    + intros os NE A. split; [cbn; lia|]. exists 0%nat, []. split; [constructor|]. intros fuel lf al _ _. exists al. destruct lf; reflexivity.
  - (* elements *)
    intros e v l a b M IHm I IHi C V. apply rvcodecs_cons in V. destruct V as [VV VL]. split.
    + intros can [|o os] A; [destruct A|]. cbn [all2] in A. destruct A as [A1 A2].
      destruct (IHm Auto can o A1 C VV) as (N1 & x & AL1 & H1). destruct (proj1 (IHi C VL) can os A2) as (N2 & xs & AL2 & H2).
      exists (Nat.max N1 N2), (x :: xs). split; [now constructor|]. intros fuel rest al LF. cbn [CodecModel.dec_list]. rewrite <- app_assoc.
      destruct (H1 fuel (b ++ rest) ltac:(lia) ltac:(discriminate) al) as [al1 X1]. rewrite X1. cbn [CodecModel.bind]. destruct (H2 fuel rest al1 ltac:(lia)) as [al2 X2]. rewrite X2. exists al2. reflexivity.
    + intros os NE A. cbn [length padded all2] in A. destruct A as [A1 A2].
      destruct (IHm Auto true _ A1 C VV) as (N1 & x & AL1 & H1). destruct (proj2 (IHi C VL) (tl os) (fun x b J => NE x b (or_intror J)) A2) as (LB & N2 & xs & AL2 & H2).
      pose proof (NE v a (or_introl eq_refl) M) as NN. assert (1 <= length a)%nat by (destruct a; [congruence|cbn; lia]).
      split; [rewrite app_length; cbn [length]; lia|]. exists (Nat.max N1 N2), (x :: xs). split; [now constructor|]. intros fuel lf al LF LL. cbn [length] in LL. destruct lf as [|lf]; [lia|].
      cbn [CodecModel.tail_loop]. rewrite not_failed. cbn [at_bytes CodecModel.s_rd r_body negb]. replace (0 <? zlen (a ++ b)) with true. 2:{ symmetry. apply Z.ltb_lt. unfold zlen. rewrite app_length. lia. }
      cbn [andb]. fold (at_bytes (a ++ b) al). destruct (H1 fuel b ltac:(lia) ltac:(discriminate) al) as [al1 X1]. rewrite X1. cbn [CodecModel.bind]. destruct (H2 fuel lf al1 ltac:(lia) ltac:(lia)) as [al2 X2]. rewrite X2. exists al2. reflexivity.
  - (* no fields *)
    intros m can t is z [|o os] F2 NF HC V A; [|destruct A]. exists 0%nat, []. split; [constructor|]. intros fuel rest al _ _. exists al. reflexivity.
  - (* skip *)
    intros e fs v vs b P IH m can t is z [|o os] F2 NF HC V A; [destruct A|]. cbn [rflds] in A. destruct A as [_ A]. apply rvcodecs_cons in V. destruct V as [_ V].
    destruct (IH m can t is z os F2 NF (fun tg u J => HC tg u (or_intror J)) V A) as (N & xs & AL & H). exists N, (o :: xs). split; [now constructor|]. intros fuel rest al LF LT. destruct (H fuel rest al LF LT) as [al' X]. exists al'.
    cbn [scan]. destruct (scan fs is z) as [z' ks]. cbn [snd dflds] in *. cbn [CodecModel.bind]. rewrite X. reflexivity.
  - (* no tag *)
    intros e fs v vs a b M IHm P IH m can t is z [|o os] F2 NF HC V A; [destruct A|]. cbn [rflds] in A. destruct A as [[A1 A2] A]. apply rvcodecs_cons in V. destruct V as [VV V].
    destruct (needf_cons TgAuto e fs ltac:(discriminate) NF) as [NE NF']. rewrite NE in F2. apply F2_cons in F2. destruct F2 as (i & is' & -> & NR & F2).
    destruct (scan_cons TgAuto e fs i is' z ltac:(discriminate)) as [z' ->]. assert (CE : rcodecs e) by (apply (HC TgAuto); [now left|discriminate]).
    destruct (IH m can t is' z' os F2 NF' (fun tg u J => HC tg u (or_intror J)) V A) as (N & xs & AL & H). cbn [CodecModel.dropped]. destruct (Z.eqb_spec (i_sz i) 0) as [Q|Q]; cbn [negb].
    + destruct NR as [-> |[NR _]]; [|lia]. destruct (A1 Q) as [FX AK]. assert (a = []) by (apply zero_bytes; now apply (fixed_bytes T e 0 true v)). subst a.
      exists N, (o :: xs). split; [now apply af_cons|]. intros fuel rest al LF LT. destruct (H fuel rest al LF LT) as [al' X]. exists al'. cbn [dflds app CodecModel.bind]. rewrite X. reflexivity.
    + destruct (IHm Auto can o A2 CE VV) as (N1 & x & AL1 & H1). exists (Nat.max N1 N), (x :: xs). split; [now apply af_cons|]. intros fuel rest al LF LT. cbn [dflds]. rewrite <- app_assoc.
      destruct (H1 fuel (b ++ rest) ltac:(lia) ltac:(discriminate) al) as [al1 X1]. rewrite X1. cbn [CodecModel.bind]. destruct (H fuel rest al1 ltac:(lia) LT) as [al2 X2]. rewrite X2. exists al2. reflexivity.
  - (* size() *)
    intros p e fs v vs a b M IHm PF P IH m can t is z [|o os] F2 NF HC V A; [destruct A|]. cbn [rflds] in A. destruct A as [[NP A1] A]. apply rvcodecs_cons in V. destruct V as [VV V].
    destruct (needf_cons (TgSize p) e fs ltac:(discriminate) NF) as [NE NF']. rewrite NE in F2. apply F2_cons in F2. destruct F2 as (i & is' & -> & NR & F2).
    destruct (scan_cons (TgSize p) e fs i is' z ltac:(discriminate)) as [z' ->]. assert (CE : rcodecs e) by (apply (HC (TgSize p)); [now left|discriminate]).
    destruct (IH m can t is' z' os F2 NF' (fun tg u J => HC tg u (or_intror J)) V A) as (N & xs & AL & H). cbn [CodecModel.dropped negb].
    cut (exists N1 x, alike T e x v /\ forall fuel rest, (N1 <= fuel)%nat -> reads (rwith_size R Z0 g fuel (rd R Z0 g fuel Fixed can e) (rd R Z0 g fuel Tail can e) p can e) o x (pre p (zlen a) ++ a) rest).
    { intros (N1 & x & AL1 & H1). exists (Nat.max N1 N), (x :: xs). split; [now apply af_cons|]. intros fuel rest al LF LT. cbn [dflds]. replace ((pre p (zlen a) ++ a ++ b) ++ rest) with ((pre p (zlen a) ++ a) ++ b ++ rest) by (now rewrite !app_assoc).
      destruct (H1 fuel (b ++ rest) ltac:(lia) al) as [al1 X1]. rewrite X1. cbn [CodecModel.bind]. destruct (H fuel rest al1 ltac:(lia) LT) as [al2 X2]. rewrite X2. exists al2. reflexivity. }
    destruct (is_text R e) eqn:TX.
    + destruct (text_ok_reads can e v o a TX A1 M) as (f & IN & _ & X). exists 0%nat, v. split; [constructor|]. intros fuel rest _ al. unfold rwith_size. rewrite not_failed, <- app_assoc, rd_prefix by (trivial; apply CodecProofs.zlen_nn). cbn [CodecModel.bind]. rewrite IN. apply X.
    + destruct (A1 a M) as (x & y & RZ & RD). destruct (set_size_ok can e o (zlen a) x y RZ (CodecProofs.zlen_nn a)) as [N1 H1].
      destruct (IHm _ can x RD CE VV) as (N2 & x' & AL2 & H2). exists (Nat.max N1 N2), x'. split; [exact AL2|]. intros fuel rest LF. apply rwith_size_ok with x y; trivial; [now apply into_none|intros b' al; apply H1; lia|].
      destruct y; apply H2; try lia; try discriminate. reflexivity.
  - (* cnt() *)
    intros p e fs v vs n a b M IHm AM PF P IH m can t is z [|o os] F2 NF HC V A; [destruct A|]. cbn [rflds] in A. destruct A as [[NP A1] A]. apply rvcodecs_cons in V. destruct V as [VV V].
    destruct (needf_cons (TgCnt p) e fs ltac:(discriminate) NF) as [NE NF']. rewrite NE in F2. apply F2_cons in F2. destruct F2 as (i & is' & -> & NR & F2).
    destruct (scan_cons (TgCnt p) e fs i is' z ltac:(discriminate)) as [z' ->]. assert (CE : rcodecs e) by (apply (HC (TgCnt p)); [now left|discriminate]).
    destruct (IH m can t is' z' os F2 NF' (fun tg u J => HC tg u (or_intror J)) V A) as (N & xs & AL & H). cbn [CodecModel.dropped negb].
    cut (exists N1 x, alike T e x v /\ forall fuel rest, (N1 <= fuel)%nat -> reads (rwith_count R Z0 g fuel (rd R Z0 g fuel Fixed can e) p can e) o x (pre p n ++ a) rest).
    { intros (N1 & x & AL1 & H1). exists (Nat.max N1 N), (x :: xs). split; [now apply af_cons|]. intros fuel rest al LF LT. cbn [dflds]. replace ((pre p n ++ a ++ b) ++ rest) with ((pre p n ++ a) ++ b ++ rest) by (now rewrite !app_assoc).
      destruct (H1 fuel (b ++ rest) ltac:(lia) al) as [al1 X1]. rewrite X1. cbn [CodecModel.bind]. destruct (H fuel rest al1 ltac:(lia) LT) as [al2 X2]. rewrite X2. exists al2. reflexivity. }
    pose proof (amount_nn T e v n AM) as NN. destruct (is_text R e) eqn:TX.
    + destruct (text_ok_reads can e v o a TX A1 M) as (f & IN & AM2 & X). assert (n = zlen a). { unfold is_text, text_ok in *. destruct (R e); try contradiction; [destruct A1 as [Q _]|destruct A1 as [Q _]]; inversion AM; subst; inversion AM2; subst; congruence. }
      subst n. exists 0%nat, v. split; [constructor|]. intros fuel rest _ al. unfold rwith_count. rewrite not_failed, <- app_assoc, rd_prefix by trivial. cbn [CodecModel.bind]. rewrite IN. apply X.
    + destruct (A1 n AM) as (x & RZ & RD). destruct (set_count_ok can e o n x RZ NN) as [N1 H1].
      destruct (IHm _ can x RD CE VV) as (N2 & x' & AL2 & H2). exists (Nat.max N1 N2), x'. split; [exact AL2|]. intros fuel rest LF. apply rwith_count_ok with x; trivial; [now apply into_none|intros b' al; apply H1; lia|].
      apply H2; [lia|discriminate].
  - (* size(no) *)
    intros e fs v vs a b M IHm P IH m can t is z [|o os] F2 NF HC V A; [destruct A|]. cbn [rflds] in A. destruct A as [[A1 A2] A]. apply rvcodecs_cons in V. destruct V as [VV V].
    assert (FE : fs = []) by (destruct fs as [|[tg' e'] fs]; [reflexivity|destruct NF; right; now left]). subst fs. inversion P; subst. destruct os; [|destruct A].
    destruct (needf_cons TgNo e [] ltac:(discriminate) NF) as [NE NF']. rewrite NE in F2. apply F2_cons in F2. destruct F2 as (i & is' & -> & NR & F2).
    destruct (scan_cons TgNo e [] i is' z ltac:(discriminate)) as [z' ->]. assert (CE : rcodecs e) by (apply (HC TgNo); [now left|discriminate]).
    cbn [CodecModel.dropped]. rewrite app_nil_r. destruct (Z.eqb_spec (i_sz i) 0) as [Q|Q]; cbn [negb].
    + destruct NR as [-> |[NR _]]; [|lia]. destruct (A1 Q) as [FX AK]. assert (a = []) by (apply zero_bytes; now apply (fixed_bytes T e 0 false v)). subst a.
      exists 0%nat, [o]. split; [apply af_cons; [exact AK|constructor]|]. intros fuel rest al LF LT. exists al. reflexivity.
    + destruct (IHm _ can o A2 CE VV) as (N1 & x & AL1 & H1). exists N1, [x]. split; [apply af_cons; [exact AL1|constructor]|]. intros fuel rest al LF LT. cbn [dflds].
      assert (LT' : match m with CodecModel.Tail => Tail | _ => Fixed end = Tail -> rest = []) by (destruct m; try discriminate; trivial).
      destruct (H1 fuel rest LF LT' al) as [al1 X1]. rewrite X1. exists al1. reflexivity.
Qed.
End Rd.
