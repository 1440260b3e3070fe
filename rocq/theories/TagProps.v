(** C151: what the text of an iproto tag means. *)
From Coq Require Import List Bool Arith Ascii String Lia.
Import ListNotations.
From Verif Require Import CodecModel TagModel TagSpec.
Open Scope string_scope.

(** what the program makes of a tag, in the words of TagSpec.v *)
Definition understood (frame : fld -> tag) (r : parsed) : meaning :=
  match r with Skipped _ => Left_out | Refused => Contradictory | Used f => Field (ber f) (frame f) end.

Lemma words_agree : forall ws f, words_w ws f = words_r ws f.
Proof.
  induction ws as [|m ws IH]; intros f; cbn [words_w words_r]; [reflexivity|].
  rewrite !IH. destruct (m =? "skip"); [reflexivity|]. destruct (m =? "ber"); [reflexivity|].
  destruct (has_prefix "size(" m).
  - destruct (cut 5 m) as [t|]; [|reflexivity]. destruct (argument t); auto.
  - destruct (has_prefix "cnt(" m); [|reflexivity]. destruct (cut 4 m) as [t|]; [|reflexivity]. destruct (argument t); auto.
Qed.
(** For every text: writer and reader make the same of it. *)
Theorem C151_writer_and_reader_agree : forall s, parse_w s = parse_r s /\ understood framed_w (parse_w s) = understood framed_r (parse_r s).
Proof.
  intros s. assert (E : parse_w s = parse_r s) by (unfold parse_w, parse_r; now rewrite words_agree).
  split; [exact E|]. rewrite E. reflexivity.
Qed.

(** ** the words of a tag *)
Fixpoint has_comma (s : string) : bool := match s with EmptyString => false | String c s => Ascii.eqb c comma || has_comma s end.
Lemma split_word : forall s, has_comma s = false -> split s = [s].
Proof.
  induction s as [|c s IH]; [reflexivity|]. cbn [has_comma split]. intros H. apply orb_false_elim in H as [H1 H2].
  rewrite H1, (IH H2). reflexivity.
Qed.
Lemma split_cons : forall w s, has_comma w = false -> split (w ++ "," ++ s) = w :: split s.
Proof.
  induction w as [|c w IH]; intros s H; [reflexivity|]. cbn [has_comma] in H. apply orb_false_elim in H as [H1 H2].
  change ((String c w ++ "," ++ s)%string) with (String c (w ++ "," ++ s)). cbn [split]. rewrite H1, (IH s H2). reflexivity.
Qed.
Lemma text_word : forall d, has_comma (text d) = false.
Proof. intros [| |p|p| |]; try destruct p; reflexivity. Qed.
Lemma split_texts : forall d ds, split (texts (d :: ds)) = map text (d :: ds).
Proof.
  intros d ds. revert d. induction ds as [|e ds IH]; intros d.
  - exact (split_word _ (text_word d)).
  - change (texts (d :: e :: ds)) with (text d ++ "," ++ texts (e :: ds)). rewrite (split_cons _ _ (text_word d)), IH. reflexivity.
Qed.

(** what one directive does *)
Definition does (d : directive) (f : fld) : fld :=
  match d with DSkip => f | DBer => f_ber f | DSize p => f_sz f p | DCnt p => f_cnt f p | DSizeNo | DCntNo => f_no f end.
Lemma word_does : forall d ws f, words_w (text d :: ws) f = if is_skip d then Skipped (nosize f) else words_w ws (does d f).
Proof. intros [| |p|p| |] ws f; try destruct p; reflexivity. Qed.
Lemma words_do : forall ds f, words_w (map text ds) f = if existsb is_skip ds then Skipped (nosize f || to_be_last ds) else Used (fold_left (fun f d => does d f) ds f).
Proof.
  induction ds as [|d ds IH]; intros f; [reflexivity|]. cbn [map existsb fold_left]. rewrite word_does, IH. destruct (existsb is_skip ds).
  - destruct d as [| |p|p| |]; cbn [is_skip is_no to_be_last orb does nosize f_no f_ber f_sz f_cnt]; rewrite ?orb_true_r, ?orb_false_r; reflexivity.
  - destruct d as [| |p|p| |]; cbn [is_skip is_no to_be_last orb does nosize f_no f_ber f_sz f_cnt]; rewrite ?orb_true_r, ?orb_false_r; reflexivity.
Qed.
Lemma fold_does : forall ds f, fold_left (fun f d => does d f) ds f =
  mkFld (ber f || existsb is_ber ds) (match last_size ds with Some p => Some p | None => sz f end)
        (match last_cnt ds with Some p => Some p | None => cnt f end) (nosize f || existsb is_no ds).
Proof.
  induction ds as [|d ds IH]; intros [b s c n]; cbn [fold_left]; [cbn; now rewrite !orb_false_r|].
  rewrite IH. destruct d as [| |p|p| |]; cbn [does f_ber f_sz f_cnt f_no ber sz cnt nosize existsb is_ber is_no last_size last_cnt orb];
    rewrite ?orb_true_r; auto.
  - destruct (last_size ds); reflexivity.
  - destruct (last_cnt ds); reflexivity.
Qed.
Lemma parse_texts_full : forall ds, parse_w (texts ds) =
  if existsb is_skip ds then Skipped (to_be_last ds)
  else match last_size ds, last_cnt ds with
       | Some _, Some _ => Refused
       | _, _ => Used (mkFld (existsb is_ber ds) (last_size ds) (last_cnt ds) (existsb is_no ds))
       end.
Proof.
  intros ds. unfold parse_w.
  assert (E : words_w (split (texts ds)) (mkFld false None None false) = if existsb is_skip ds then Skipped (to_be_last ds) else Used (fold_left (fun f d => does d f) ds (mkFld false None None false))).
  { destruct ds as [|d ds]; [reflexivity|]. rewrite split_texts. apply words_do. }
  rewrite E, fold_does. destruct (existsb is_skip ds); [reflexivity|]. cbn [ber sz cnt nosize orb].
  destruct (last_size ds) as [p|]; destruct (last_cnt ds) as [p'|]; reflexivity.
Qed.
Lemma parse_texts : forall ds, understood framed_w (parse_w (texts ds)) = means ds.
Proof.
  intros ds. rewrite parse_texts_full. unfold means. destruct (existsb is_skip ds); [reflexivity|].
  destruct (last_size ds) as [p|]; destruct (last_cnt ds) as [p'|]; reflexivity.
Qed.
(** For every list of directives, in any order and with any repetitions, written as in TagSpec.v: writer and reader do what they ask for. *)
Theorem C151_directives_are_obeyed : forall ds,
  understood framed_w (parse_w (texts ds)) = means ds /\ understood framed_r (parse_r (texts ds)) = means ds.
Proof.
  intros ds. split; [apply parse_texts|]. destruct (C151_writer_and_reader_agree (texts ds)) as [_ <-]. apply parse_texts.
Qed.

(** every frame of CodecModel.v, with and without varints, has a tag *)
Definition as_text (v : bool) (tg : tag) : list directive :=
  (match tg with TgSkip => [DSkip] | TgAuto => [] | TgSize p => [DSize p] | TgCnt p => [DCnt p] | TgNo => [DSizeNo] end) ++
  (if v then [DBer] else []).
Theorem C151_every_frame_can_be_asked_for : forall v tg,
  understood framed_w (parse_w (texts (as_text v tg))) = (match tg with TgSkip => Left_out | _ => Field v tg end).
Proof. intros v tg. rewrite parse_texts. destruct v, tg; reflexivity. Qed.

(** ** the fields of a struct type *)
Definition tags (fs : list dfield) : list sfield := map (fun f => (fst f, texts (snd f))) fs.
Lemma fields_agree : forall fs no, fields_w fs no = fields_r fs no.
Proof.
  induction fs as [|[e s] fs IH]; intros no; [reflexivity|]. cbn [fields_w fields_r]. destruct (C151_writer_and_reader_agree s) as [<- _].
  rewrite IH. destruct (negb e); [reflexivity|]. destruct no; [reflexivity|]. destruct (parse_w s) as [no| |f]; [now rewrite IH|reflexivity|].
  rewrite IH. reflexivity.
Qed.
Lemma last_no_skip : forall ds, existsb is_skip ds = false -> to_be_last ds = existsb is_no ds.
Proof.
  induction ds as [|d ds IH]; [reflexivity|]. cbn [existsb]. intros H. apply orb_false_elim in H as [H1 H2]. destruct d; try discriminate;
    cbn [to_be_last is_no orb]; auto.
Qed.
Lemma fields_hidden : forall fs, Forall (fun f => fst f = false) fs -> fields_w (tags fs) true = Some (map becomes fs).
Proof.
  induction fs as [|[e ds] fs IH]; intros H; [reflexivity|]. inversion H as [|? ? H1 H2]; subst. cbn in H1. subst e. cbn [tags map fields_w fst snd negb].
  fold (tags fs). rewrite (IH H2). reflexivity.
Qed.
Lemma fields_spec : forall fs no, fields_w (tags fs) no = Some (map becomes fs) \/ fields_w (tags fs) no = None.
Proof.
  induction fs as [|[e ds] fs IH]; intros no; [auto|]. cbn [tags map fields_w fst snd]. fold (tags fs). destruct e; cbn [negb].
  - destruct no; [auto|]. pose proof (parse_texts ds) as E. unfold becomes. cbn [fst snd].
    destruct (parse_w (texts ds)) as [no| |f]; cbn [understood] in E; rewrite <- E; [|auto|];
      [destruct (IH no) as [X|X]|destruct (IH (nosize f)) as [X|X]]; rewrite X; auto.
  - destruct (IH no) as [X|X]; rewrite X; auto.
Qed.
Lemma fields_ok : forall fs no, fields_w (tags fs) no <> None <->
  (no = true -> Forall (fun f => fst f = false) fs) /\ Forall (fun f => ~ contradictory f) fs /\ last_is_last fs.
Proof.
  induction fs as [|[e ds] fs IH]; intros no.
  - cbn. split; [intros _; repeat split; auto|discriminate].
  - cbn [tags map fields_w fst snd last_is_last]. fold (tags fs). destruct e; cbn [negb].
    + destruct no.
      { split; [congruence|]. intros (H & _). specialize (H eq_refl). inversion H. discriminate. }
      pose proof (parse_texts ds) as E. rewrite parse_texts_full in *. destruct (existsb is_skip ds) eqn:K.
      * cbn [understood] in E. specialize (IH (to_be_last ds)).
        assert (G : option_map (cons None) (fields_w (tags fs) (to_be_last ds)) <> None <-> fields_w (tags fs) (to_be_last ds) <> None)
          by (destruct (fields_w (tags fs) (to_be_last ds)); cbn; split; congruence).
        rewrite G, IH. split.
        -- intros (A1 & A2 & A3). repeat split; auto; [discriminate|]. constructor; [|exact A2]. intros [_ X]. cbn in X. congruence.
        -- intros (_ & A2 & A3 & A4). inversion A2; auto.
      * rewrite <- (last_no_skip ds K) in *. destruct (last_size ds) as [p|] eqn:Z1; destruct (last_cnt ds) as [p'|] eqn:Z2; cbn [understood] in E;
          [split; [congruence|intros (_ & A2 & _); inversion A2 as [|? ? A0 ?]; subst; destruct A0; split; [reflexivity|symmetry; exact E]]| | |];
          cbn [nosize]; specialize (IH (to_be_last ds));
          (match goal with |- option_map ?g _ <> None <-> _ =>
             assert (G : option_map g (fields_w (tags fs) (to_be_last ds)) <> None <-> fields_w (tags fs) (to_be_last ds) <> None)
               by (destruct (fields_w (tags fs) (to_be_last ds)); cbn; split; congruence) end);
          rewrite G, IH;
          (split;
           [intros (A1 & A2 & A3); repeat split; auto; [discriminate|]; constructor; [|exact A2]; intros [_ X]; cbn in X; congruence
           |intros (_ & A2 & A3 & A4); inversion A2; auto]).
    + specialize (IH no).
      assert (G : option_map (cons None) (fields_w (tags fs) no) <> None <-> fields_w (tags fs) no <> None)
          by (destruct (fields_w (tags fs) no); cbn; split; congruence).
      rewrite G, IH. split.
      * intros (A1 & A2 & A3). split; [intros X; constructor; auto|]. split; [constructor; [intros [X _]; discriminate|exact A2]|]. split; [discriminate|exact A3].
      * intros (A1 & A2 & A3 & A4). inversion A2; subst. repeat split; auto. intros X. specialize (A1 X). inversion A1; auto.
Qed.
(** For every struct type whose tags are lists of directives: it is accepted exactly when no tag asks for a size and a count and
    only the last exported field has a size(no), and then every field becomes what its tag asks for - for the writer and for the reader. *)
Theorem C151_struct_tags : forall fs, fields_w (tags fs) false = fields_r (tags fs) false /\
  (fields_w (tags fs) false = None <-> Exists contradictory fs \/ ~ last_is_last fs) /\
  (forall us, fields_w (tags fs) false = Some us -> us = map becomes fs).
Proof.
  intros fs. split; [apply fields_agree|]. pose proof (fields_ok fs false) as K. split.
  - assert (D : Forall (fun f => ~ contradictory f) fs \/ Exists contradictory fs).
    { assert (DD : forall f, contradictory f \/ ~ contradictory f).
      { intros [[|] ds]; unfold contradictory; cbn [fst snd]; [|right; intros [? _]; discriminate].
        destruct (means ds); [right; intros [_ X]; discriminate|left; auto|right; intros [_ X]; discriminate]. }
      clear K. induction fs as [|f fs IH]; [left; constructor|]. destruct (DD f); [right; now constructor|]. destruct IH; [left; now constructor|right; now constructor 2]. }
    split.
    + intros E. destruct D as [D|D]; [right|now left]. intros L. destruct K as [_ K]. apply K; auto. repeat split; auto. discriminate.
    + intros [X|X]; destruct (fields_w (tags fs) false) as [us|] eqn:E; auto; exfalso; destruct K as [K _];
        destruct (K ltac:(discriminate)) as (_ & K1 & K2); [|tauto]. apply Exists_exists in X as (f & I1 & X). rewrite Forall_forall in K1. exact (K1 f I1 X).
  - intros us E. destruct (fields_spec fs false) as [X|X]; congruence.
Qed.
(** A field that is left out is not always without effect: after a size(no) in the same tag the fields behind it are refused. *)
Theorem C151_left_out_is_left_out_refuted :
  means [DSizeNo; DSkip] = Left_out /\ means [DSkip; DSizeNo] = Left_out /\
  (forall fs ds, fields_w (tags ((true, DSizeNo :: DSkip :: ds) :: (true, []) :: fs)) false = None) /\
  fields_w (tags [(true, [DSkip; DSizeNo]); (true, [])]) false = Some [None; Some (false, TgAuto)].
Proof.
  repeat split; try reflexivity. intros fs ds. cbn [tags map fields_w fst snd negb]. rewrite parse_texts_full. reflexivity.
Qed.

(** ** texts that are not such a list *)
(** A word that begins like a size or count and is not one of them, as read by the program, makes the type be refused - unless a skip stands before it. *)
Definition word_of (s w : string) : Prop := In w (split s).
Definition frame_word (w : string) : Prop := has_prefix "size(" w = true \/ has_prefix "cnt(" w = true.
Definition inside (w : string) : option string := if has_prefix "size(" w then cut 5 w else cut 4 w.
Lemma words_used : forall ws f f', words_w ws f = Used f' -> forall w, In w ws -> frame_word w ->
  exists t, inside w = Some t /\ argument t <> ABad.
Proof.
  induction ws as [|m ws IH]; intros f f' E w I W; [destruct I|]. cbn [words_w] in E.
  destruct (String.eqb_spec m "skip") as [->|N1]; [discriminate|].
  destruct (String.eqb_spec m "ber") as [->|N2].
  { destruct I as [<-|I]; [destruct W as [W|W]; discriminate|eauto]. }
  destruct (has_prefix "size(" m) eqn:P1.
  - destruct (cut 5 m) as [t|] eqn:C; [|discriminate]. destruct I as [<-|I].
    + exists t. unfold inside. rewrite P1. split; [exact C|]. destruct (argument t); congruence.
    + destruct (argument t); try discriminate; eauto.
  - destruct (has_prefix "cnt(" m) eqn:P2.
    + destruct (cut 4 m) as [t|] eqn:C; [|discriminate]. destruct I as [<-|I].
      * exists t. unfold inside. rewrite P1. split; [exact C|]. destruct (argument t); congruence.
      * destruct (argument t); try discriminate; eauto.
    + destruct I as [<-|I]; [destruct W as [W|W]; congruence|eauto].
Qed.
Theorem C151_unknown_widths_are_refused_partial : forall s f w, parse_w s = Used f -> word_of s w -> frame_word w ->
  exists t, inside w = Some t /\ In t ["ber"; "i8"; "i16"; "i32"; "i64"; "no"].
Proof.
  intros s f w E I W. unfold parse_w in E. destruct (words_w (split s) (mkFld false None None false)) as [| |f'] eqn:X; try discriminate.
  destruct (words_used _ _ _ X w I W) as (t & T & N). exists t. split; [exact T|]. unfold argument in N. cbn [In].
  destruct (String.eqb_spec t "ber"); [auto|]. destruct (String.eqb_spec t "i8"); [auto|]. destruct (String.eqb_spec t "i16"); [auto|].
  destruct (String.eqb_spec t "i32"); [auto 6|]. destruct (String.eqb_spec t "i64"); [auto 7|]. destruct (String.eqb_spec t "no"); [auto 8|]. congruence.
Qed.

(** Other words are not refused but passed over: a tag with one means what it means without it. *)
Definition passed_over (w : string) : Prop := w <> "skip" /\ w <> "ber" /\ ~ frame_word w.
Lemma words_over : forall w ws ws' f, passed_over w -> words_w (ws ++ w :: ws') f = words_w (ws ++ ws') f.
Proof.
  intros w ws ws' f (N1 & N2 & N3). revert f. induction ws as [|m ws IH]; intros f.
  - cbn [app words_w]. destruct (String.eqb_spec w "skip"); [contradiction|]. destruct (String.eqb_spec w "ber"); [contradiction|].
    unfold frame_word in N3. destruct (has_prefix "size(" w); [tauto|]. destruct (has_prefix "cnt(" w); [tauto|]. reflexivity.
  - cbn [app words_w]. destruct (m =? "skip"); [reflexivity|]. destruct (m =? "ber"); [apply IH|]. destruct (has_prefix "size(" m).
    + destruct (cut 5 m) as [t|]; [|reflexivity]. destruct (argument t); auto.
    + destruct (has_prefix "cnt(" m); [|apply IH]. destruct (cut 4 m) as [t|]; [|reflexivity]. destruct (argument t); auto.
Qed.
(** So a slip of the pen is not noticed: a blank after a comma, a capital letter or a wrong bracket changes or drops a directive silently. *)
Theorem C151_unknown_words_are_refused_refuted :
  (forall s w, has_comma w = false -> passed_over w -> parse_w (w ++ "," ++ s) = parse_w s) /\
  understood framed_w (parse_w "ber, size(i32)") = Field true TgAuto /\
  understood framed_w (parse_w "Size(i32)") = Field false TgAuto /\
  understood framed_w (parse_w "size(i8]") = Field false (TgSize P8) /\
  understood framed_w (parse_w "size(i16") = Contradictory.
Proof.
  split; [|repeat split; reflexivity]. intros s w C P. unfold parse_w. rewrite (split_cons w s C).
  now rewrite (words_over w [] (split s) (mkFld false None None false) P : words_w (w :: split s) _ = words_w (split s) _).
Qed.

(** ** Examples *)
Example C151_texts : texts [DSize P32; DBer] = "size(i32),ber" /\ means [DSize P32; DBer] = Field true (TgSize P32) /\
  texts [DCnt PBer] = "cnt(ber)" /\ means [DSize P8; DCnt P8] = Contradictory /\ means [DBer; DSkip] = Left_out /\ means [DSize P8; DSize P16; DSizeNo] = Field false (TgSize P16).
Proof. repeat split; reflexivity. Qed.
Example C151_widths : exists f, parse_w "ber,cnt(i64)" = Used f /\ word_of "ber,cnt(i64)" "cnt(i64)" /\ frame_word "cnt(i64)".
Proof. eexists. split; [reflexivity|]. split; [right; left; reflexivity|right; reflexivity]. Qed.
Example C151_struct : fields_w (tags [(true, [DBer]); (false, [DSizeNo]); (true, [DSkip]); (true, [DCntNo])]) false
    = Some [Some (true, TgAuto); None; None; Some (false, TgNo)] /\
  last_is_last [(true, [DBer]); (false, [DSizeNo]); (true, [DSkip]); (true, [DCntNo])] /\ ~ last_is_last [(true, [DCntNo]); (true, [DSkip])].
Proof. split; [reflexivity|]. split; [cbn; repeat split; intros; try discriminate; constructor|]. intros [X _]. specialize (X eq_refl eq_refl). inversion X. discriminate. Qed.
Example C151_passed : passed_over " size(i32)" /\ has_comma " size(i32)" = false.
Proof. split; [|reflexivity]. split; [discriminate|]. split; [discriminate|]. intros [X|X]; discriminate. Qed.

Print Assumptions C151_writer_and_reader_agree.
Print Assumptions C151_directives_are_obeyed.
Print Assumptions C151_every_frame_can_be_asked_for.
Print Assumptions C151_struct_tags.
Print Assumptions C151_left_out_is_left_out_refuted.
Print Assumptions C151_unknown_widths_are_refused_partial.
Print Assumptions C151_unknown_words_are_refused_refuted.
