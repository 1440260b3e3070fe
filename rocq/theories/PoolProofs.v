(** Invariant of the pools of Writers. *)
From Coq Require Import List Bool Arith ZArith Lia.
Import ListNotations.
From Verif Require Import Base PrimModel PrimSpec PrimProofs PrimWriter CodecModel CodecProofs PoolWriter PoolModel PoolSpec.
Open Scope nat_scope.

Lemma upd_same {A} (f : nat -> A) k v : upd f k v k = v.
Proof. unfold upd. now rewrite Nat.eqb_refl. Qed.
Lemma upd_other {A} (f : nat -> A) k v i : i <> k -> upd f k v i = f i.
Proof. intro N. unfold upd. apply Nat.eqb_neq in N. now rewrite N. Qed.
Ltac fields := cbn [objs nxt pool chan pcs w_pc w_obj ok fst snd] in *.
Ltac spl i k := destruct (Nat.eq_dec i k) as [->|?]; [rewrite ?upd_same in *|rewrite ?(upd_other _ k _ i) in * by assumption].

(** ** Ownership *)
Definition iobj (i : item) : list nat := match i with IPut o => [o] | _ => [] end.
Definition iobjs (f : frame) : list nat := flat_map iobj (f_items f).
Definition fobjs (f : frame) : list nat := f_obj f :: iobjs f.
Definition owned (c : pc) : list nat := match c with PRun fs => flat_map fobjs fs | PPut o _ => [o] | _ => [] end.
Record Sep (idle : list nat) (n : nat) (ow : nat -> list nat) : Prop := mkSep {
  sNd : forall k, NoDup (idle ++ ow k);
  sPair : forall k k' o, k <> k' -> In o (ow k) -> ~ In o (ow k');
  sLt : forall k o, In o (idle ++ ow k) -> o < n }.
Lemma nodup_app {A} (l m : list A) : NoDup (l ++ m) <-> NoDup l /\ NoDup m /\ (forall x, In x l -> ~ In x m).
Proof.
  induction l as [|a l IH]; cbn [app].
  - split; [intro H; repeat split; [constructor|exact H|intros ? []]|tauto].
  - rewrite !NoDup_cons_iff, IH, in_app_iff. split.
    + intros (N & N1 & N2 & D). repeat split; auto. intros x [<-|X]; [tauto|now apply D].
    + intros ((N & N1) & N2 & D). repeat split; auto; [|intros x X; apply D; now right]. intros [X|X]; [tauto|]. apply (D a); [now left|exact X].
Qed.
Lemma sep_step idle n ow idle' n' ow' k :
  Sep idle n ow -> (forall j, j <> k -> ow' j = ow j) -> n <= n' -> NoDup (idle' ++ ow' k) ->
  (forall o, In o (idle' ++ ow' k) -> In o (idle ++ ow k) \/ n <= o < n') -> Sep idle' n' ow'.
Proof.
  intros [S1 S2 S3] E L N I. assert (O : forall j o, j <> k -> In o (ow j) -> ~ In o (idle' ++ ow' k)).
  { intros j o J X Y. apply I in Y. destruct Y as [Y|Y].
    - apply in_app_or in Y. destruct Y as [Y|Y].
      + specialize (S1 j). apply nodup_app in S1. destruct S1 as (_ & _ & D). now apply (D o).
      + now apply (S2 k j o) in Y; auto.
    - specialize (S3 j o (in_or_app _ _ _ (or_intror X))). lia. }
  split.
  - intro j. destruct (Nat.eq_dec j k) as [->|J]; [exact N|]. rewrite (E j J). apply nodup_app in N. destruct N as (N1 & N2 & N3).
    apply nodup_app. split; [exact N1|]. split; [specialize (S1 j); apply nodup_app in S1; tauto|]. intros x X Y. apply (O j x J Y). apply in_or_app. now left.
  - intros j j' o J X Y. destruct (Nat.eq_dec j k) as [->|J1]; destruct (Nat.eq_dec j' k) as [->|J2]; try congruence.
    + rewrite (E j' J2) in Y. apply (O j' o J2 Y). apply in_or_app. now right.
    + rewrite (E j J1) in X. apply (O j o J1 X). apply in_or_app. now right.
    + rewrite (E j J1) in X. rewrite (E j' J2) in Y. now apply (S2 j j' o J).
  - intros j o X. apply in_app_or in X. assert (G : In o (idle' ++ ow' k) -> o < n').
    { intro Y. apply I in Y. destruct Y as [Y|Y]; [|lia]. apply S3 in Y. lia. }
    destruct X as [X|X]; [apply G; apply in_or_app; now left|]. destruct (Nat.eq_dec j k) as [->|J]; [apply G; apply in_or_app; now right|].
    rewrite (E j J) in X. specialize (S3 j o (in_or_app _ _ _ (or_intror X))). lia.
Qed.

(** ** What a goroutine will have written *)
Definition ibytes (ob : nat -> writer) (i : item) : list Z :=
  match i with IAct a => bytes_of a | ICopy o s => sl_bytes (w_mem (ob o)) s | IPut _ => [] end.
Fixpoint final (ob : nat -> writer) (ins : list Z) (fs : list frame) : list Z :=
  match fs with
  | [] => ins
  | f :: fs => let b := wbytes (ob (f_obj f)) ++ ins ++ flat_map (ibytes ob) (f_items f) in
               match fs with [] => b | _ => final ob (put (f_size f (length b)) ++ b) fs end
  end.
Definition icalm (i : item) : bool := match i with IAct a => calm a | _ => true end.
Definition fcalm (fs : list frame) : bool := forallb (fun f => forallb icalm (f_items f)) fs.
(** forms of the lists of items *)
Inductive tidy : list item -> Prop :=
| tA l : tidy (map IAct l)
| tP o l : tidy (IPut o :: map IAct l)
| tC o s l : tidy (ICopy o s :: IPut o :: map IAct l)
| tE c o s l : tidy (IAct (Emit c) :: ICopy o s :: IPut o :: map IAct l).
Fixpoint shaped (kind : nat -> bool) (fs : list frame) : Prop :=
  match fs with
  | [] => False
  | f :: fs => tidy (f_items f) /\ (forall o, In o (iobjs f) -> kind o = false) /\
               match fs with [] => kind (f_obj f) = true | g :: _ => kind (f_obj f) = false /\ (exists l, f_items g = map IAct l) /\ shaped kind fs end
  end.
Lemma tidy_copy its o s : tidy its -> In (ICopy o s) its -> In o (flat_map iobj its).
Proof.
  intros T. assert (N : forall l, ~ In (ICopy o s) (map IAct l)) by (intros l H; apply in_map_iff in H; destruct H as (? & ? & ?); discriminate).
  destruct T as [l|o' l|o' s' l|c o' s' l]; cbn.
  - intro H. now apply N in H.
  - intros [H|H]; [discriminate|now apply N in H].
  - intros [H|[H|H]]; [injection H as -> ->; now left|discriminate|now apply N in H].
  - intros [H|[H|[H|H]]]; [discriminate|injection H as -> ->; now left|discriminate|now apply N in H].
Qed.
Lemma acts_noobj l : flat_map iobj (map IAct l) = [].
Proof. induction l; [reflexivity|exact IHl]. Qed.
Lemma acts_bytes ob l : flat_map (ibytes ob) (map IAct l) = flat_map bytes_of l.
Proof. induction l as [|a l IH]; [reflexivity|]. cbn. now rewrite IH. Qed.
Lemma acts_calm l : forallb icalm (map IAct l) = forallb calm l.
Proof. induction l as [|a l IH]; [reflexivity|]. cbn. now rewrite IH. Qed.
Lemma items_local ob ob' its : tidy its -> (forall o, In o (flat_map iobj its) -> ob' o = ob o) -> flat_map (ibytes ob') its = flat_map (ibytes ob) its.
Proof.
  intros T H. assert (G : forall i, In i its -> ibytes ob' i = ibytes ob i).
  { intros [a|o s|o] I; cbn; trivial. rewrite (H o); [reflexivity|]. now apply (tidy_copy its o s). }
  clear - G. induction its as [|i its IH]; [reflexivity|]. cbn. rewrite (G i) by now left. f_equal. apply IH. intros j J. apply G. now right.
Qed.
Lemma final_local kind ob ob' fs : forall ins, shaped kind fs ->
  (forall o, In o (flat_map fobjs fs) -> wbytes (ob' o) = wbytes (ob o) /\ (kind o = false -> ob' o = ob o)) ->
  final ob' ins fs = final ob ins fs.
Proof.
  induction fs as [|f fs IH]; intros ins S H; [destruct S|]. cbn [final]. destruct S as (T & K & S).
  assert (E : wbytes (ob' (f_obj f)) ++ ins ++ flat_map (ibytes ob') (f_items f) = wbytes (ob (f_obj f)) ++ ins ++ flat_map (ibytes ob) (f_items f)).
  { rewrite (proj1 (H (f_obj f) ltac:(now left))), (items_local ob ob' _ T); [reflexivity|]. intros o O. apply H; [|now apply K]. cbn. right. apply in_or_app. now left. }
  rewrite !E. destruct fs as [|g fs]; [reflexivity|]. destruct S as (S1 & _ & S2). apply IH; [exact S2|]. intros o O. apply H. cbn [flat_map]. apply in_or_app. now right.
Qed.

(** ** Writing into a result *)
Lemma nth_overwrite (a : list Z) p v j : p < length a -> nth_error (overwrite a p [v]) j = if j =? p then Some v else nth_error a j.
Proof.
  intro L. unfold overwrite. destruct (Nat.eqb_spec j p) as [->|N].
  - rewrite nth_error_app2; rewrite firstn_length, Nat.min_l by lia; [|lia]. now rewrite Nat.sub_diag.
  - destruct (Nat.lt_ge_cases j p) as [H|H].
    + rewrite nth_error_app1 by (rewrite firstn_length; lia). rewrite <- (firstn_skipn p a) at 2. rewrite nth_error_app1; [reflexivity|rewrite firstn_length; lia].
    + rewrite nth_error_app2; rewrite firstn_length, Nat.min_l by lia; [|lia]. rewrite nth_error_app2; cbn [length]; [|lia]. rewrite <- (firstn_skipn (p + 1) a) at 2. rewrite nth_error_app2; rewrite firstn_length, Nat.min_l by lia; [|lia]. f_equal. lia.
Qed.
Lemma nth_window (a : list Z) off len j : nth_error (firstn len (skipn off a)) j = if j <? len then nth_error a (off + j) else None.
Proof.
  destruct (Nat.ltb_spec j len) as [L|L].
  - assert (G : forall (l : list Z) n i, i < n -> nth_error (firstn n l) i = nth_error l i).
    { clear. induction l as [|x l IH]; intros n i H; [now destruct n, i|]. destruct n; [lia|]. destruct i; [reflexivity|]. cbn. apply IH. lia. }
    rewrite G by assumption. clear. revert off. induction a as [|x a IH]; intros off; [now destruct off, j|]. destruct off; [reflexivity|]. cbn. apply IH.
  - apply nth_error_None. rewrite firstn_length. lia.
Qed.
Lemma list_ext {A} (l : list A) : forall m, (forall j, nth_error l j = nth_error m j) -> l = m.
Proof.
  induction l as [|x l IH]; intros [|y m] H; trivial; [now specialize (H 0)|now specialize (H 0)|].
  pose proof (H 0) as H0. cbn in H0. injection H0 as ->. f_equal. apply IH. intro j. exact (H (S j)).
Qed.
Lemma window_apart (a : list Z) p v off len : p < length a -> (p < off \/ off + len <= p) -> firstn len (skipn off (overwrite a p [v])) = firstn len (skipn off a).
Proof.
  intros L D. apply list_ext. intro j. rewrite !nth_window. destruct (Nat.ltb_spec j len) as [J|J]; [|reflexivity]. rewrite nth_overwrite by exact L. destruct (Nat.eqb_spec (off + j) p); [lia|reflexivity].
Qed.
Lemma overwrite_len (a : list Z) p v : p < length a -> length (overwrite a p [v]) = length a.
Proof. intro L. unfold overwrite. rewrite !app_length, firstn_length, skipn_length. cbn [length]. lia. Qed.
Lemma in_range (m : memory) s : length (sl_bytes m s) = s_len s -> 0 < s_len s -> s_off s + s_len s <= length (nth (s_arr s) m []).
Proof. unfold sl_bytes. rewrite firstn_length, skipn_length. lia. Qed.
Section Poke.
Variables (w : writer) (sl : slice) (i : nat) (v : Z).
Hypothesis W : wf w.
Hypothesis AW : away w sl.
Hypothesis LN : length (sl_bytes (w_mem w) sl) = s_len sl.
Hypothesis IN : i < s_len sl.
Let P : s_off sl + i < length (nth (s_arr sl) (w_mem w) []).
Proof. pose proof (in_range _ _ LN). lia. Qed.
Lemma poke_arr n : length (nth n (w_mem (poke w sl i v)) []) = length (nth n (w_mem w) []).
Proof.
  cbn [poke w_mem]. destruct AW as [A _]. destruct (Nat.eq_dec n (s_arr sl)) as [->|N].
  - rewrite upd_nth_same by exact A. now apply overwrite_len.
  - now rewrite upd_nth_other by congruence.
Qed.
Lemma poke_count : length (w_mem (poke w sl i v)) = length (w_mem w).
Proof. cbn [poke w_mem]. apply upd_nth_length. Qed.
Lemma poke_wf : wf (poke w sl i v).
Proof. destruct W as (W1 & W2 & W3). unfold wf. rewrite poke_count, poke_arr. now split. Qed.
Lemma poke_away s : away w s -> away (poke w sl i v) s.
Proof. intros [A B]. split; [now rewrite poke_count|exact B]. Qed.
Lemma poke_apart s : s_arr s <> s_arr sl \/ s_off s + s_len s <= s_off sl \/ s_off sl + s_len sl <= s_off s -> sl_bytes (w_mem (poke w sl i v)) s = sl_bytes (w_mem w) s.
Proof.
  intro D. unfold sl_bytes. cbn [poke w_mem]. destruct AW as [A _]. destruct (Nat.eq_dec (s_arr s) (s_arr sl)) as [E|N].
  - rewrite E, upd_nth_same by exact A. apply window_apart; [exact P|]. lia.
  - now rewrite upd_nth_other by congruence.
Qed.
Lemma poke_wbytes : wbytes (poke w sl i v) = wbytes w.
Proof. unfold wbytes. apply (poke_apart (w_buf w)). destruct AW as [_ [A|A]]; [left; congruence|right; right; exact A]. Qed.
Lemma poke_sound : Forall (eq 0%Z) (free w) -> sound (poke w sl i v).
Proof.
  intro F. split; [exact poke_wf|]. set (r := mkSl (s_arr (w_buf w)) (s_off (w_buf w) + s_len (w_buf w)) (s_cap (w_buf w) - s_len (w_buf w)) 0).
  assert (E : free (poke w sl i v) = sl_bytes (w_mem w) r); [|rewrite E; exact F].
  change (sl_bytes (w_mem (poke w sl i v)) r = sl_bytes (w_mem w) r). apply poke_apart. subst r. cbn. destruct AW as [_ [A|A]]; [left; congruence|right; right; lia].
Qed.
Lemma poke_length s : length (sl_bytes (w_mem w) s) = s_len s -> length (sl_bytes (w_mem (poke w sl i v)) s) = s_len s.
Proof. unfold sl_bytes. rewrite !firstn_length, !skipn_length, poke_arr. trivial. Qed.
End Poke.

(** ** The invariant *)
Definition res (c : pc) : option (nat * slice) := match c with PPut o s | PRet o s => Some (o, s) | _ => None end.
Definition Res (kind : nat -> bool) (n : nat) (ob : nat -> writer) (t : list obs) (k o : nat) (s : slice) : Prop :=
  o < n /\ kind o = true /\ away (ob o) s /\ length (sl_bytes (w_mem (ob o)) s) = s_len s /\
  exists acts, In (QCall k acts) t /\ forallb calm acts = true /\
    (~ In (QPoke k) t -> sl_bytes (w_mem (ob o)) s = flat_map bytes_of acts).
Definition Run (kind : nat -> bool) (ob : nat -> writer) (t : list obs) (k : nat) (fs : list frame) : Prop :=
  shaped kind fs /\ (forall o, In o (flat_map iobjs fs) -> wbytes (ob o) = []) /\
  exists acts, In (QCall k acts) t /\ forallb calm acts = fcalm fs /\
    final ob [] fs = flat_map bytes_of acts.
Definition Loc (kind : nat -> bool) (n : nat) (ob : nat -> writer) (t : list obs) (k : nat) (c : pc) : Prop :=
  match c with
  | PNew => forall a, ~ In (QCall k a) t
  | PGet acts => In (QCall k acts) t
  | PRun fs => Run kind ob t k fs
  | PPut o s => wbytes (ob o) = [] /\ Res kind n ob t k o s
  | PRet o s => Res kind n ob t k o s
  | PPanic => True
  end.
Record Inv (kind : nat -> bool) (t : list obs) (s : st) : Prop := mkInv {
  iSep : Sep (pool s ++ chan s) (nxt s) (fun k => owned (pcs s k));
  iKp : forall o, In o (pool s) -> kind o = true;
  iKc : forall o, In o (chan s) -> kind o = false;
  iWf : forall o, sound (objs s o);
  iIdle : forall o, In o (pool s ++ chan s) -> wbytes (objs s o) = [];
  iLoc : forall k, Loc kind (nxt s) (objs s) t k (pcs s k);
  iApart : forall k k' o sl o' sl', k <> k' -> res (pcs s k) = Some (o, sl) -> res (pcs s k') = Some (o', sl') -> apart o sl o' sl';
  iRet : forall k o sl, In (QRet k o sl) t -> pcs s k = PRet o sl;
  iPan : forall k, In (QPanic k) t -> exists acts, In (QCall k acts) t /\ forallb calm acts = false;
  iEnd : forall k, pcs s k = PPanic -> In (QPanic k) t;
  iOne : forall k a a', In (QCall k a) t -> In (QCall k a') t -> a = a' }.
Lemma init_inv : Inv (fun _ => true) [] s_init.
Proof.
  split; cbn; try tauto; try discriminate.
  - split; cbn; [intro; constructor|tauto|tauto].
  - intros _. apply new_sound.
Qed.
Lemma iobjs_owned fs o : In o (flat_map iobjs fs) -> In o (flat_map fobjs fs).
Proof. rewrite !in_flat_map. intros (f & F & O). exists f. split; [exact F|]. now right. Qed.
Lemma iobjs_kind kind fs o : shaped kind fs -> In o (flat_map iobjs fs) -> kind o = false.
Proof.
  induction fs as [|f fs IH]; intros S O; [destruct O|]. destruct S as (T & K & S). cbn in O. apply in_app_or in O. destruct O as [O|O]; [now apply K|].
  destruct fs; [destruct O|]. now apply IH.
Qed.
Lemma shaped_kind kind kind' fs : shaped kind fs -> (forall o, In o (flat_map fobjs fs) -> kind' o = kind o) -> shaped kind' fs.
Proof.
  induction fs as [|f fs IH]; intros S H; [destruct S|]. destruct S as (T & K & S). split; [exact T|]. split; [|destruct fs as [|g fs]].
  - intros o O. rewrite H; [now apply K|]. cbn. right. apply in_or_app. now left.
  - rewrite H; [exact S|now left].
  - destruct S as (S1 & S0 & S2). split; [rewrite H; [exact S1|now left]|]. split; [exact S0|]. apply IH; [exact S2|]. intros o O. apply H. cbn [flat_map]. apply in_or_app. now right.
Qed.
(** what the others do does not matter *)
Lemma loc_transfer kind kind' n n' ob ob' t t' k c :
  Loc kind n ob t k c -> (forall o, In o t -> In o t') -> (forall a, In (QCall k a) t' -> In (QCall k a) t) -> (In (QPoke k) t -> In (QPoke k) t') -> n <= n' ->
  (forall o, o < n -> kind' o = kind o) -> (forall o, In o (owned c) -> o < n) ->
  (forall o, In o (owned c) -> wbytes (ob' o) = wbytes (ob o) /\ (kind o = false -> ob' o = ob o)) ->
  (forall o s, res c = Some (o, s) -> Res kind n ob t k o s -> away (ob' o) s /\ sl_bytes (w_mem (ob' o)) s = sl_bytes (w_mem (ob o)) s) ->
  Loc kind' n' ob' t' k c.
Proof.
  intros L M C PK N K O F R. destruct c as [|acts|fs|o s|o s|]; cbn [Loc owned res] in *.
  - intros a A. apply C in A. now apply (L a).
  - now apply M.
  - destruct L as (S & I & acts & A & B & D). split; [apply (shaped_kind kind); auto|]. split.
    + intros o X. rewrite (proj1 (F o (iobjs_owned _ _ X))). now apply I.
    + exists acts. split; [now apply M|]. split; [exact B|]. now rewrite (final_local kind ob ob' fs [] S F).
  - destruct L as (I & L). specialize (R o s eq_refl L). destruct L as (A & B & D & E & acts & G & H & J). destruct R as [R1 R2]. split; [rewrite (proj1 (F o (or_introl eq_refl))); exact I|].
    split; [lia|]. split; [now rewrite K|]. split; [exact R1|]. split; [now rewrite R2|]. exists acts. split; [now apply M|]. split; [exact H|]. intro NP. rewrite R2. apply J; auto.
  - pose proof L as L'. specialize (R o s eq_refl L). destruct L as (A & B & D & E & acts & G & H & J). destruct R as [R1 R2].
    split; [lia|]. split; [now rewrite K|]. split; [exact R1|]. split; [now rewrite R2|]. exists acts. split; [now apply M|]. split; [exact H|]. intro NP. rewrite R2. apply J; auto.
  - exact Logic.I.
Qed.
Definition evolve (w w' : writer) : Prop := forall s, away w s -> away w' s /\ sl_bytes (w_mem w') s = sl_bytes (w_mem w) s.
Lemma apart_sym o s o' s' : apart o s o' s' -> apart o' s' o s.
Proof. unfold apart. intros [H|[H|[H|H]]]; auto. Qed.
(** a step of goroutine k *)
Lemma prog_inv kind kind' t s k out s' :
  Inv kind t s -> nxt s <= nxt s' -> (forall j, j <> k -> pcs s' j = pcs s j) ->
  NoDup ((pool s' ++ chan s') ++ owned (pcs s' k)) ->
  (forall o, In o ((pool s' ++ chan s') ++ owned (pcs s' k)) -> In o ((pool s ++ chan s) ++ owned (pcs s k)) \/ nxt s <= o < nxt s') ->
  (forall o, o < nxt s -> kind' o = kind o) -> (forall o, In o (pool s') -> kind' o = true) -> (forall o, In o (chan s') -> kind' o = false) ->
  (forall o, sound (objs s' o)) -> (forall o, o < nxt s -> ~ In o (owned (pcs s k)) -> objs s' o = objs s o) ->
  (forall o, o < nxt s -> evolve (objs s o) (objs s' o)) -> (forall o, In o (pool s' ++ chan s') -> wbytes (objs s' o) = []) ->
  Loc kind' (nxt s') (objs s') (t ++ out) k (pcs s' k) ->
  (forall x, In x out -> x = QPanic k \/ exists o sl, x = QRet k o sl) ->
  (forall o sl, res (pcs s' k) = Some (o, sl) -> res (pcs s k) = Some (o, sl) \/ forall j o' sl', j <> k -> res (pcs s j) = Some (o', sl') -> apart o sl o' sl') ->
  (forall o sl, In (QRet k o sl) out -> pcs s' k = PRet o sl) -> (forall o sl, pcs s k <> PRet o sl) ->
  (In (QPanic k) out -> exists acts, In (QCall k acts) t /\ forallb calm acts = false) -> (pcs s' k = PPanic -> In (QPanic k) out) ->
  Inv kind' (t ++ out) s'.
Proof.
  intros I HN HP H1 H2 HK HKp HKc HW HO HE HI HL HX HA HR HNR HPan HEnd. pose proof (iSep _ _ _ I) as SP.
  assert (NC : forall j a, In (QCall j a) (t ++ out) -> In (QCall j a) t).
  { intros j a A. apply in_app_or in A. destruct A as [A|A]; [exact A|]. apply HX in A. destruct A as [A|(? & ? & A)]; discriminate. }
  assert (OW : forall j, owned (pcs s' j) = (fun k => owned (pcs s' k)) j) by reflexivity.
  split; trivial.
  - apply (sep_step (pool s ++ chan s) (nxt s) (fun j => owned (pcs s j)) _ _ (fun j => owned (pcs s' j)) k); trivial. intros j J. now rewrite HP.
  - intro j. destruct (Nat.eq_dec j k) as [->|J]; [exact HL|]. rewrite (HP j J).
    assert (LT : forall o, In o (owned (pcs s j)) -> o < nxt s) by (intros o O; apply (sLt _ _ _ SP j); apply in_or_app; now right).
    assert (EQ : forall o, In o (owned (pcs s j)) -> objs s' o = objs s o).
    { intros o O. apply HO; [now apply LT|]. intro X. now apply (sPair _ _ _ SP j k o J). }
    apply (loc_transfer kind kind' (nxt s) (nxt s') (objs s) (objs s') t); trivial; try (exact (iLoc _ _ _ I j)).
    + intros o O. apply in_or_app. now left.
    + intros a A. now apply NC.
    + intro P. apply in_or_app. now left.
    + intros o O. rewrite (EQ o O). auto.
    + intros o sl R (L & _ & AW & _). now apply HE.
  - assert (G : forall j o sl, j <> k -> res (pcs s' j) = Some (o, sl) -> res (pcs s j) = Some (o, sl)) by (intros j o sl J; now rewrite HP).
    intros j j' o sl o' sl' J R R'. destruct (Nat.eq_dec j k) as [->|J1]; destruct (Nat.eq_dec j' k) as [->|J2]; try congruence.
    + destruct (HA o sl R) as [X|X]; [|apply (X j'); auto]. apply (iApart _ _ _ I k j'); auto.
    + apply apart_sym. destruct (HA o' sl' R') as [X|X]; [|apply (X j); auto]. apply (iApart _ _ _ I k j); auto.
    + apply (iApart _ _ _ I j j'); auto.
  - intros j o sl R. apply in_app_or in R. destruct (Nat.eq_dec j k) as [->|J].
    + destruct R as [R|R]; [|now apply HR]. apply (iRet _ _ _ I) in R. now apply HNR in R.
    + rewrite (HP j J). destruct R as [R|R]; [now apply (iRet _ _ _ I)|]. apply HX in R. destruct R as [R|(? & ? & R)]; [discriminate|]. injection R as -> -> ->. congruence.
  - intros j P. apply in_app_or in P. assert (G : exists acts, In (QCall j acts) t /\ forallb calm acts = false).
    { destruct P as [P|P]; [now apply (iPan _ _ _ I)|]. pose proof P as P'. apply HX in P. destruct P as [P|(? & ? & P)]; [|discriminate]. injection P as ->. now apply HPan. }
    destruct G as (a & A & B). exists a. split; [apply in_or_app; now left|exact B].
  - intros j P. apply in_or_app. destruct (Nat.eq_dec j k) as [->|J]; [right; now apply HEnd|]. left. rewrite (HP j J) in P. now apply (iEnd _ _ _ I).
  - intros j a a' A A'. apply NC in A, A'. now apply (iOne _ _ _ I j).
Qed.
(** ** Lists of frames *)
Definition hb (ob : nat -> writer) (ins : list Z) (f : frame) : list Z := wbytes (ob (f_obj f)) ++ ins ++ flat_map (ibytes ob) (f_items f).
Definition after (ob : nat -> writer) (b : list Z) (sz : nat -> wcall) (fs : list frame) : list Z :=
  match fs with [] => b | _ => final ob (put (sz (length b)) ++ b) fs end.
Lemma final_cons ob ins f fs : final ob ins (f :: fs) = after ob (hb ob ins f) (f_size f) fs.
Proof. reflexivity. Qed.
Lemma after_local kind ob ob' b sz fs : (fs = [] \/ shaped kind fs) ->
  (forall o, In o (flat_map fobjs fs) -> ob' o = ob o) ->
  after ob' b sz fs = after ob b sz fs.
Proof.
  intros S H. destruct fs as [|f fs]; [reflexivity|]. destruct S as [S|S]; [discriminate|]. apply (final_local kind); [exact S|]. intros o O. rewrite (H o O). auto.
Qed.
Lemma tidy_tl i its : tidy (i :: its) -> tidy its.
Proof.
  intro T. inversion T as [l E|o l E|o s l E|c o s l E]; subst.
  - destruct l as [|a l]; [discriminate|]. injection E as <- <-. apply tA.
  - apply tA.
  - apply tP.
  - apply tC.
Qed.
Lemma shaped_tl kind f fs : shaped kind (f :: fs) -> fs = [] \/ shaped kind fs.
Proof. intros (_ & _ & S). destruct fs; [now left|right; apply S]. Qed.
Lemma owned_split f fs : flat_map fobjs (f :: fs) = f_obj f :: flat_map iobj (f_items f) ++ flat_map fobjs fs.
Proof. reflexivity. Qed.
Lemma evolve_refl w : evolve w w.
Proof. intros s A. now split. Qed.
Lemma run_of kind t s k fs : Inv kind t s -> pcs s k = PRun fs -> Run kind (objs s) t k fs /\ NoDup ((pool s ++ chan s) ++ flat_map fobjs fs) /\ (forall o, In o ((pool s ++ chan s) ++ flat_map fobjs fs) -> o < nxt s).
Proof.
  intros I E. pose proof (iLoc _ _ _ I k) as L. pose proof (sNd _ _ _ (iSep _ _ _ I) k) as N. pose proof (sLt _ _ _ (iSep _ _ _ I) k) as T. cbn beta in *. rewrite E in *. now split.
Qed.
Ltac notin := let H := fresh in intro H; subst; auto.
Lemma write_inv kind t s k o i its sz fs c : Inv kind t s -> pcs s k = PRun (mkF o (i :: its) sz :: fs) -> iobj i = [] -> icalm i = true ->
  put c = ibytes (objs s) i ->
  Inv kind (t ++ fst (write s k o c (mkF o its sz :: fs))) (snd (write s k o c (mkF o its sz :: fs))).
Proof.
  intros I E IO IC IK. destruct (run_of kind t s k _ I E) as ((S & ID & acts & A & B & D) & N & LT).
  destruct (call_put (objs s o) c (iWf _ _ _ I o)) as (w & W1 & W2 & W3 & W5). unfold write. rewrite W1. cbn [fst snd ok].
  rewrite owned_split in *. cbn [f_obj f_items flat_map] in *. rewrite IO in *. cbn [app] in *.
  apply nodup_app in N. destruct N as (N1 & N2 & N3). apply NoDup_cons_iff in N2. destruct N2 as [N2 N4]. rewrite in_app_iff in N2.
  assert (SH : shaped kind (mkF o its sz :: fs)).
  { destruct S as (T & K & S). split; [now apply tidy_tl in T|]. split; [|exact S]. intros x X. apply K. unfold iobjs. cbn [f_items flat_map]. now rewrite IO. }
  apply (prog_inv kind kind t s k); fields; trivial; try rewrite upd_same; try rewrite E; try (intros; discriminate).
  - intros j J. now rewrite upd_other.
  - cbn [owned]. rewrite owned_split. cbn [f_obj f_items]. apply nodup_app. split; [exact N1|]. split; [|exact N3]. apply NoDup_cons; [now rewrite in_app_iff|exact N4].
  - intros x X. left. cbn [owned] in *. rewrite owned_split in *. cbn [f_obj f_items flat_map] in *. now rewrite IO.
  - exact (iKp _ _ _ I).
  - exact (iKc _ _ _ I).
  - intro x. spl x o; [exact W2|apply (iWf _ _ _ I)].
  - intros x _ X. apply upd_other. intros ->. apply X. now left.
  - intros x _. spl x o; [exact W5|apply evolve_refl].
  - intros x X. rewrite upd_other; [now apply (iIdle _ _ _ I)|]. intros ->. apply (N3 o X). now left.
  - cbn [Loc]. split; [exact SH|]. split.
    + intros x X. rewrite upd_other; [apply ID; cbn [flat_map iobjs f_items] in *; unfold iobjs; cbn [f_items flat_map]; now rewrite IO|]. intros ->. apply N2. cbn [flat_map] in X. apply in_app_or in X. destruct X as [X|X]; [now left|]. right. now apply iobjs_owned.
    + exists acts. split; [apply in_or_app; now left|]. split; [rewrite B; unfold fcalm; cbn [forallb f_items]; now rewrite IC|].
      rewrite final_cons in D. cbn [f_items f_size] in *.
      assert (HB : hb (upd (objs s) o w) [] (mkF o its sz) = hb (objs s) [] (mkF o (i :: its) sz)).
      { unfold hb. cbn [f_obj f_items flat_map app]. rewrite upd_same, W3, IK. rewrite (items_local (objs s)); [now rewrite <- app_assoc| |].
        - destruct S as (T & _). now apply tidy_tl in T.
        - intros x X. apply upd_other. intros ->. apply N2. now left. }
      pose proof (after_local kind (objs s) (upd (objs s) o w) (hb (objs s) [] (mkF o (i :: its) sz)) sz fs) as F1.
      rewrite final_cons, HB. cbn [f_size f_items]. rewrite F1; [exact D| |].
      * now apply shaped_tl in S.
      * intros x X. apply upd_other. intros ->. apply N2. now right.
  - intros x [].
  - intros x y [].
  - intros [].
Qed.

(** Written of a nested Writer *)
Lemma close_inv kind t s k o sz p its sz' fs : Inv kind t s -> pcs s k = PRun (mkF o [] sz :: mkF p its sz' :: fs) ->
  Inv kind (t ++ fst (step_run s k (mkF o [] sz :: mkF p its sz' :: fs))) (snd (step_run s k (mkF o [] sz :: mkF p its sz' :: fs))).
Proof.
  intros I E. destruct (run_of kind t s k _ I E) as ((S & ID & acts & A & B & D) & N & LT).
  destruct (Written_sound (objs s o) (iWf _ _ _ I o)) as (W1 & W2 & W3 & W4 & W5). pose proof (wbytes_length _ (proj1 (iWf _ _ _ I o))) as WL. cbn [step_run].
  assert (SL : s_len (snd (w_Written (objs s o))) = length (wbytes (objs s o))) by (rewrite WL; reflexivity).
  destruct (w_Written (objs s o)) as [w sl]. cbn [fst snd] in *.
  change (flat_map fobjs (mkF o [] sz :: mkF p its sz' :: fs)) with (o :: p :: flat_map iobj its ++ flat_map fobjs fs) in *.
  apply nodup_app in N. destruct N as (N1 & N2 & N3). apply NoDup_cons_iff in N2. destruct N2 as [N2 N4]. pose proof N4 as N4'. apply NoDup_cons_iff in N4'. destruct N4' as [N5 N6].
  assert (OP : p <> o) by (intros ->; apply N2; now left).
  destruct S as (_ & _ & KO & (l & TI) & (T & K & S)). cbn [f_items f_obj] in *. subst its. rewrite acts_noobj in *. cbn [app] in *.
  assert (SH : shaped kind (mkF p (IAct (Emit (sz (s_len sl))) :: ICopy o sl :: IPut o :: map IAct l) sz' :: fs)).
  { split; [apply tE|]. split; [|exact S]. intros x X. unfold iobjs in X. cbn [f_items flat_map iobj app] in X. rewrite acts_noobj in X. destruct X as [<-|[]]. exact KO. }
  assert (OW : flat_map fobjs (mkF p (IAct (Emit (sz (s_len sl))) :: ICopy o sl :: IPut o :: map IAct l) sz' :: fs) = p :: o :: flat_map fobjs fs).
  { rewrite owned_split. cbn [f_obj f_items flat_map iobj app]. now rewrite acts_noobj. }
  apply (prog_inv kind kind t s k); fields; trivial; try rewrite upd_same; try rewrite E; try (intros; discriminate); cbn [owned]; try rewrite OW.
  - intros j J. now rewrite upd_other.
  - apply nodup_app. split; [exact N1|]. split.
    + constructor; [intros [X|X]; [congruence|now apply N5]|]. constructor; [intro X; apply N2; now right|exact N6].
    + intros x X Y. apply (N3 x X). cbn in *. tauto.
  - intros x X. left. apply in_app_or in X. apply in_or_app. change (flat_map fobjs (mkF o [] sz :: mkF p (map IAct l) sz' :: fs)) with (o :: p :: flat_map iobj (map IAct l) ++ flat_map fobjs fs). rewrite acts_noobj. cbn in *. tauto.
  - exact (iKp _ _ _ I).
  - exact (iKc _ _ _ I).
  - intro x. spl x o; [exact W1|apply (iWf _ _ _ I)].
  - intros x _ X. apply upd_other. intros ->. apply X. now left.
  - intros x _. spl x o; [exact W5|apply evolve_refl].
  - intros x X. rewrite upd_other; [now apply (iIdle _ _ _ I)|]. intros ->. apply (N3 o X). now left.
  - cbn [Loc]. split; [exact SH|]. split.
    + intros x X. cbn [flat_map] in X. unfold iobjs in X. cbn [f_items flat_map iobj app] in X. rewrite acts_noobj in X. destruct X as [<-|X]; [now rewrite upd_same|]. rewrite upd_other; [apply ID; cbn [flat_map]; unfold iobjs; cbn [f_items flat_map app]; now rewrite acts_noobj|].
      intros ->. apply N2. right. now apply iobjs_owned.
    + exists acts. split; [apply in_or_app; now left|]. split; [exact B|].
      rewrite final_cons in D. cbn [f_items f_size after] in *. rewrite final_cons in D. cbn [f_items f_size] in *.
      assert (HB0 : hb (objs s) [] (mkF o [] sz) = wbytes (objs s o)) by (unfold hb; cbn [f_items f_obj flat_map app]; now rewrite app_nil_r).
      rewrite HB0 in *. rewrite <- SL in *.
      assert (HB : hb (upd (objs s) o w) [] (mkF p (IAct (Emit (sz (s_len sl))) :: ICopy o sl :: IPut o :: map IAct l) sz') = hb (objs s) (put (sz (s_len sl)) ++ wbytes (objs s o)) (mkF p (map IAct l) sz')).
      { unfold hb. cbn [f_obj f_items flat_map app ibytes bytes_of]. rewrite upd_same, (upd_other _ o _ p), W3, !acts_bytes by assumption. now rewrite !app_assoc. }
      pose proof (after_local kind (objs s) (upd (objs s) o w) (hb (objs s) (put (sz (s_len sl)) ++ wbytes (objs s o)) (mkF p (map IAct l) sz')) sz' fs) as F1.
      rewrite final_cons, HB. cbn [f_size f_items]. rewrite F1; [exact D| |].
      * destruct fs; [now left|right; apply S].
      * intros x X. apply upd_other. intros ->. apply N2. now right.
  - intros x [].
  - intros x y [].
  - intros [].
Qed.
(** Written at the end *)
Lemma end_inv kind t s k o sz : Inv kind t s -> pcs s k = PRun [mkF o [] sz] ->
  Inv kind (t ++ fst (step_run s k [mkF o [] sz])) (snd (step_run s k [mkF o [] sz])).
Proof.
  intros I E. destruct (run_of kind t s k _ I E) as ((S & ID & acts & A & B & D) & N & LT).
  destruct (Written_sound (objs s o) (iWf _ _ _ I o)) as (W1 & W2 & W3 & W4 & W5). pose proof (wbytes_length _ (proj1 (iWf _ _ _ I o))) as WL. cbn [step_run].
  assert (SL : s_len (snd (w_Written (objs s o))) = length (wbytes (objs s o))) by (rewrite WL; reflexivity).
  assert (SB : s_arr (snd (w_Written (objs s o))) = s_arr (w_buf (objs s o)) /\ s_off (snd (w_Written (objs s o))) = s_off (w_buf (objs s o))) by (split; reflexivity).
  destruct (w_Written (objs s o)) as [w sl]. cbn [fst snd] in *. destruct S as (_ & _ & KO). cbn [f_obj] in KO.
  change (flat_map fobjs [mkF o [] sz]) with [o] in *.
  apply nodup_app in N. destruct N as (N1 & N2 & N3).
  apply (prog_inv kind kind t s k); fields; trivial; try rewrite upd_same; try rewrite E; try (intros; discriminate); cbn [owned].
  - intros j J. now rewrite upd_other.
  - apply nodup_app. now split.
  - intros x X. now left.
  - exact (iKp _ _ _ I).
  - exact (iKc _ _ _ I).
  - intro x. spl x o; [exact W1|apply (iWf _ _ _ I)].
  - intros x _ X. apply upd_other. intros ->. apply X. now left.
  - intros x _. spl x o; [exact W5|apply evolve_refl].
  - intros x X. rewrite upd_other; [now apply (iIdle _ _ _ I)|]. intros ->. apply (N3 o X). now left.
  - cbn [Loc]. unfold Res. rewrite upd_same. split; [exact W2|]. split; [apply LT; apply in_or_app; right; now left|]. split; [exact KO|]. split; [exact W4|]. split; [now rewrite W3|].
    exists acts. split; [apply in_or_app; now left|]. split; [exact B|]. intros _. rewrite W3, <- D. cbn. now rewrite app_nil_r.
  - intros x [].
  - intros o1 sl1 R. right. injection R as <- <-. intros j o' sl' J R. pose proof (iLoc _ _ _ I j) as L. assert (G : Res kind (nxt s) (objs s) t j o' sl').
    { destruct (pcs s j); cbn in R; try discriminate; injection R as -> ->; [apply L|exact L]. }
    destruct G as (_ & _ & (_ & G) & _). unfold apart. destruct (Nat.eq_dec o o') as [<-|]; [|now left]. right. destruct SB as [-> ->]. destruct G as [G|G]; [left; congruence|right; right; exact G].
  - intros x y [].
  - intros [].
Qed.
(** a panic of the value *)
Lemma boom_inv kind t s k o its sz fs : Inv kind t s -> pcs s k = PRun (mkF o (IAct Boom :: its) sz :: fs) -> Inv kind (t ++ [QPanic k]) (w_pc s k PPanic).
Proof.
  intros I E. destruct (run_of kind t s k _ I E) as ((S & ID & acts & A & B & D) & N & LT).
  apply (prog_inv kind kind t s k); fields; trivial; try rewrite upd_same; try rewrite E; try (intros; discriminate); cbn [owned Loc]; trivial.
  - intros j J. now rewrite upd_other.
  - rewrite app_nil_r. apply nodup_app in N. tauto.
  - intros x X. left. rewrite app_nil_r in X. apply in_or_app. now left.
  - exact (iKp _ _ _ I).
  - exact (iKc _ _ _ I).
  - exact (iWf _ _ _ I).
  - intros x _. apply evolve_refl.
  - exact (iIdle _ _ _ I).
  - intros x [<-|[]]. now left.
  - intros x y [X|[]]. discriminate.
  - intros _. exists acts. now split.
  - intros _. now left.
Qed.
(** the size is not known: a nested Writer *)
Lemma wkind_new (kind : nat -> bool) n b : (forall o, o < n -> upd kind n b o = kind o).
Proof. intros o L. apply upd_other. lia. Qed.
Lemma open_inv kind t s k o sz' body its sz fs : Inv kind t s -> pcs s k = PRun (mkF o (IAct (Sized sz' body) :: its) sz :: fs) ->
  exists kind', Inv kind' (t ++ fst (step s (Go k None))) (snd (step s (Go k None))).
Proof.
  intros I E. destruct (run_of kind t s k _ I E) as ((S & ID & acts & A & B & D) & N & LT). cbn [step]. rewrite E. cbn [step_run].
  rewrite owned_split in *. cbn [f_obj f_items flat_map iobj app] in *.
  assert (PU : exists l, its = map IAct l).
  { destruct S as (T & _). cbn [f_items] in T. inversion T as [l H|x l H|x y l H|c x y l H]. destruct l as [|a l]; [discriminate|]. injection H as _ <-. now exists l. }
  destruct PU as [l ->]. rewrite acts_noobj in *. cbn [app] in *.
  assert (G : forall o' s1 kind', (forall x, x < nxt s -> kind' x = kind x) -> kind' o' = false ->
    wbytes (objs s1 o') = [] -> ~ In o' (o :: flat_map fobjs fs) -> ~ In o' (pool s1 ++ chan s1) -> (o' < nxt s \/ o' = nxt s /\ nxt s1 = Datatypes.S (nxt s)) -> nxt s <= nxt s1 ->
    pcs s1 = pcs s -> pool s1 = pool s -> (forall x, In x (chan s1) -> In x (chan s)) -> NoDup (chan s1) -> (forall x, sound (objs s1 x)) -> (forall x, x < nxt s -> objs s1 x = objs s x) -> (o' < nxt s -> In o' (chan s)) ->
    Inv kind' (t ++ []) (w_pc s1 k (PRun (mkF o' (map IAct body) sz' :: mkF o (map IAct l) sz :: fs)))).
  { intros o' s1 kind' K1 K2 WB NI NP LN LE PC PL CH ND WF OB OC. apply nodup_app in N. destruct N as (N1 & N2 & N3).
    assert (OW : owned (PRun (mkF o' (map IAct body) sz' :: mkF o (map IAct l) sz :: fs)) = o' :: o :: flat_map fobjs fs).
    { cbn [owned flat_map]. unfold fobjs at 1 2. unfold iobjs. cbn [f_obj f_items]. now rewrite !acts_noobj. }
    assert (LO : forall x, In x (o :: flat_map fobjs fs) -> x < nxt s) by (intros x X; apply LT; apply in_or_app; now right).
    apply (prog_inv kind kind' t s k); fields; trivial; try rewrite upd_same; try rewrite E; try (intros; discriminate); try rewrite OW.
    - intros j J. rewrite upd_other by exact J. now rewrite PC.
    - apply nodup_app. rewrite PL. split; [|split].
      + apply nodup_app. apply nodup_app in N1. destruct N1 as (N11 & N12 & N13). split; [exact N11|]. split; [exact ND|]. intros x X Y. apply (N13 x X). now apply CH.
      + constructor; assumption.
      + intros x X [Y|Y]; [subst x; apply NP; now rewrite PL|]. apply (N3 x); [|exact Y]. apply in_app_or in X. apply in_or_app. destruct X as [X|X]; [now left|right; now apply CH].
    - intros x X. cbn [owned]. rewrite owned_split. cbn [f_obj f_items flat_map iobj app]. rewrite acts_noobj. cbn [app]. rewrite PL in X. apply in_app_or in X. destruct X as [X|[X|X]].
      + left. apply in_or_app. left. apply in_app_or in X. apply in_or_app. destruct X as [X|X]; [now left|right; now apply CH].
      + subst x. destruct LN as [LN|[LN LN']]; [left; apply in_or_app; left; apply in_or_app; right; now apply OC|right; lia].
      + left. apply in_or_app. now right.
    - intros x X. rewrite PL in X. rewrite K1; [now apply (iKp _ _ _ I)|]. apply LT. apply in_or_app. left. apply in_or_app. now left.
    - intros x X. apply CH in X. rewrite K1; [now apply (iKc _ _ _ I)|]. apply LT. apply in_or_app. left. apply in_or_app. now right.
    - intros x L _. now apply OB.
    - intros x L. rewrite OB by exact L. apply evolve_refl.
    - intros x X. assert (X' : In x (pool s ++ chan s)) by (rewrite PL in X; apply in_app_or in X; apply in_or_app; destruct X as [X|X]; [now left|right; now apply CH]).
      rewrite OB; [now apply (iIdle _ _ _ I)|]. apply LT. apply in_or_app. now left.
    - cbn [Loc]. destruct S as (T & K & S). cbn [f_items f_obj] in *.
      assert (SH : shaped kind' (mkF o (map IAct l) sz :: fs)).
      { apply (shaped_kind kind); [split; [apply tA|split; [|exact S]]|].
        - intros x X. unfold iobjs in X. cbn [f_items] in X. now rewrite acts_noobj in X.
        - intros x X. apply K1. apply LO. rewrite owned_split in X. cbn [f_obj f_items] in X. now rewrite acts_noobj in X. }
      split; [|split].
      + split; [apply tA|]. split; [intros x X; unfold iobjs in X; cbn [f_items] in X; now rewrite acts_noobj in X|]. split; [exact K2|]. split; [now exists l|exact SH].
      + intros x X. cbn [flat_map] in X. unfold iobjs in X at 1 2. cbn [f_items] in X. rewrite !acts_noobj in X. cbn [app] in X. rewrite OB; [|apply LO; right; now apply iobjs_owned]. apply ID. cbn [flat_map]. apply in_or_app. now right.
      + exists acts. split; [apply in_or_app; now left|]. split.
        { rewrite B. unfold fcalm. cbn [forallb f_items icalm calm]. now rewrite !acts_calm, andb_assoc. }
        rewrite final_cons in D. cbn [f_items f_size] in *.
        assert (HB1 : hb (objs s1) [] (mkF o' (map IAct body) sz') = flat_map bytes_of body) by (unfold hb; cbn [f_obj f_items app]; now rewrite WB, acts_bytes).
        assert (HB2 : hb (objs s1) (put (sz' (length (flat_map bytes_of body))) ++ flat_map bytes_of body) (mkF o (map IAct l) sz) = hb (objs s) [] (mkF o (IAct (Sized sz' body) :: map IAct l) sz)).
        { unfold hb. cbn [f_obj f_items flat_map ibytes bytes_of app]. rewrite !acts_bytes, (OB o); [reflexivity|]. apply LO. now left. }
        pose proof (after_local kind (objs s) (objs s1) (hb (objs s) [] (mkF o (IAct (Sized sz' body) :: map IAct l) sz)) sz fs) as F1.
        rewrite final_cons, HB1. cbn [f_size f_items after]. rewrite final_cons, HB2. cbn [f_size f_items]. rewrite F1; [exact D| |].
        * destruct fs; [now left|right; apply S].
        * intros x X. apply OB. apply LO. now right.
    - intros x [].
    - intros x y [].
    - intros []. }
  pose proof (nodup_app (pool s ++ chan s) (o :: flat_map fobjs fs)) as NN. apply NN in N as N'. clear NN. destruct N' as (N1 & N2 & N3). apply nodup_app in N1. destruct N1 as (N11 & N12 & N13).
  destruct (get_chan s) as [o' s1] eqn:GC. exists (if o' <? nxt s then kind else upd kind (nxt s) false). unfold get_chan in GC. destruct (chan s) as [|o1 ch] eqn:CH.
  - unfold alloc in GC. injection GC as <- <-. destruct (Nat.ltb_spec (nxt s) (nxt s)); [lia|]. cbn [fst snd ok]. apply G; fields; trivial.
    + apply wkind_new.
    + apply upd_same.
    + rewrite upd_same. apply new_sound.
    + intro X. assert (nxt s < nxt s) by (apply LT; apply in_or_app; now right). lia.
    + intro X. rewrite CH in X. assert (nxt s < nxt s) by (apply LT; apply in_or_app; now left). lia.
    + right. split; [reflexivity|reflexivity].
    + lia.
    + now rewrite CH.
    + rewrite CH. constructor.
    + intro x. spl x (nxt s); [apply new_sound|apply (iWf _ _ _ I)].
    + intros x L. apply upd_other. lia.
    + lia.
  - injection GC as <- <-. assert (L1 : o1 < nxt s) by (apply LT; apply in_or_app; left; apply in_or_app; right; now left). destruct (Nat.ltb_spec o1 (nxt s)); [|lia]. cbn [fst snd ok]. apply NoDup_cons_iff in N12. destruct N12 as [N12 N14]. apply G; fields; trivial.
    + apply (iKc _ _ _ I). rewrite CH. now left.
    + apply (iIdle _ _ _ I). rewrite CH. apply in_or_app. right. now left.
    + apply N3. apply in_or_app. right. now left.
    + intro X. apply in_app_or in X. destruct X as [X|X]; [|contradiction]. apply (N13 o1 X). now left.
    + now left.
    + intros x X. now right.
    + exact (iWf _ _ _ I).
    + intros _. now left.
Qed.

Lemma remove_incl {A} i : forall (l : list A) x, In x (remove_nth i l) -> In x l.
Proof. induction i as [|i IH]; intros [|y l] x X; cbn in *; auto. destruct X as [X|X]; [now left|right; now apply IH]. Qed.
Lemma remove_nodup {A} i : forall (l : list A), NoDup l -> NoDup (remove_nth i l).
Proof. induction i as [|i IH]; intros [|y l] N; cbn; auto; apply NoDup_cons_iff in N; destruct N as [N1 N2]; [exact N2|]. constructor; [intro X; now apply remove_incl in X|now apply IH]. Qed.
Lemma remove_gone {A} i : forall (l : list A) o, NoDup l -> nth_error l i = Some o -> ~ In o (remove_nth i l).
Proof.
  induction i as [|i IH]; intros [|y l] o N E; cbn in *; try discriminate; apply NoDup_cons_iff in N; destruct N as [N1 N2].
  - now injection E as ->.
  - intros [X|X]; [|now apply (IH l o N2)]. subst y. apply N1. now apply nth_error_In in E.
Qed.
(** puttwriter *)
Lemma put_inv kind t s k o o' its sz fs : Inv kind t s -> pcs s k = PRun (mkF o (IPut o' :: its) sz :: fs) ->
  Inv kind (t ++ []) (w_pc (put_chan s o') k (PRun (mkF o its sz :: fs))).
Proof.
  intros I E. destruct (run_of kind t s k _ I E) as ((S & ID & acts & A & B & D) & N & LT).
  rewrite owned_split in *. cbn [f_obj f_items flat_map iobj app] in *. destruct S as (T & K & S). cbn [f_items f_obj] in *. unfold iobjs in K. cbn [f_items flat_map iobj app] in K.
  assert (PU : exists l, its = map IAct l).
  { inversion T as [l H|x l H|x y l H|c x y l H]; [destruct l; discriminate|subst; now exists l]. }
  destruct PU as [l ->]. rewrite acts_noobj in *. cbn [app] in *.
  apply nodup_app in N. destruct N as (N1 & N2 & N3). apply nodup_app in N1. destruct N1 as (N11 & N12 & N13). apply NoDup_cons_iff in N2. destruct N2 as [N2 N4]. apply NoDup_cons_iff in N4. destruct N4 as [N4 N5].
  assert (OW : owned (PRun (mkF o (map IAct l) sz :: fs)) = o :: flat_map fobjs fs).
  { cbn [owned]. rewrite owned_split. cbn [f_obj f_items]. now rewrite acts_noobj. }
  assert (ID' : wbytes (objs s o') = []) by (apply ID; now left).
  assert (CH : forall x, In x (chan (put_chan s o')) -> In x (chan s) \/ x = o').
  { intros x X. unfold put_chan in X. destruct (_ <? _); fields; [|now left]. apply in_app_or in X. destruct X as [X|[X|[]]]; auto. }
  assert (P0 : pool (put_chan s o') = pool s) by (unfold put_chan; now destruct (_ <? _)).
  assert (P1 : nxt (put_chan s o') = nxt s) by (unfold put_chan; now destruct (_ <? _)).
  assert (P2 : pcs (put_chan s o') = pcs s) by (unfold put_chan; now destruct (_ <? _)).
  assert (P3 : objs (put_chan s o') = objs s) by (unfold put_chan; now destruct (_ <? _)).
  assert (P4 : NoDup (chan (put_chan s o'))).
  { unfold put_chan. destruct (_ <? _); fields; [|exact N12]. apply nodup_app. split; [exact N12|]. split; [constructor; [tauto|constructor]|]. intros x X [Y|[]]. subst x. apply (N3 o'); [apply in_or_app; now right|right; now left]. }
  assert (LO : forall x, In x (o :: o' :: flat_map fobjs fs) -> x < nxt s) by (intros x X; apply LT; apply in_or_app; now right).
  assert (SH : shaped kind (mkF o (map IAct l) sz :: fs)).
  { split; [apply tA|]. split; [|exact S]. intros x X. unfold iobjs in X. cbn [f_items] in X. now rewrite acts_noobj in X. }
  apply (prog_inv kind kind t s k); fields; trivial; rewrite ?upd_same, ?E, ?OW, ?P0, ?P1, ?P2, ?P3; trivial; try (intros; discriminate).
  - intros j J. now rewrite upd_other.
  - apply nodup_app. split; [apply nodup_app; split; [exact N11|split; [exact P4|]]|split].
    + intros x X Y. apply CH in Y. destruct Y as [Y|Y]; [now apply (N13 x X)|]. subst x. apply (N3 o'); [apply in_or_app; now left|right; now left].
    + constructor; [intro X; apply N2; now right|exact N5].
    + intros x X Y. apply in_app_or in X. destruct X as [X|X]; [|apply CH in X; destruct X as [X|X]].
      * apply (N3 x); [apply in_or_app; now left|]. cbn in *. tauto.
      * apply (N3 x); [apply in_or_app; now right|]. cbn in *. tauto.
      * subst x. destruct Y as [Y|Y]; [subst o'; apply N2; now left|now apply N4].
  - intros x X. left. cbn [owned]. rewrite owned_split. cbn [f_obj f_items flat_map iobj app]. rewrite acts_noobj. cbn [app]. apply in_app_or in X. apply in_or_app. destruct X as [X|X].
    + apply in_app_or in X. destruct X as [X|X]; [left; apply in_or_app; now left|]. apply CH in X. destruct X as [X|X]; [left; apply in_or_app; now right|right; subst x; right; now left].
    + right. cbn in *. tauto.
  - exact (iKp _ _ _ I).
  - intros x X. apply CH in X. destruct X as [X|X]; [now apply (iKc _ _ _ I)|]. subst x. apply K. now left.
  - exact (iWf _ _ _ I).
  - intros x _. apply evolve_refl.
  - intros x X. apply in_app_or in X. destruct X as [X|X]; [apply (iIdle _ _ _ I); apply in_or_app; now left|]. apply CH in X. destruct X as [X|X]; [apply (iIdle _ _ _ I); apply in_or_app; now right|now subst x].
  - cbn [Loc]. split; [exact SH|]. split.
    + intros x X. apply ID. cbn [flat_map] in *. unfold iobjs in X at 1. cbn [f_items] in X. rewrite acts_noobj in X. cbn [app] in X. apply in_or_app. now right.
    + exists acts. split; [apply in_or_app; now left|]. split; [exact B|]. rewrite final_cons in *. exact D.
  - intros x [].
  - intros x y [].
  - intros [].
Qed.
(** writerPool.Get *)
Lemma get_inv kind t s k c acts : Inv kind t s -> pcs s k = PGet acts ->
  exists kind', Inv kind' (t ++ fst (step s (Go k c))) (snd (step s (Go k c))).
Proof.
  intros I E. pose proof (iLoc _ _ _ I k) as L. pose proof (sNd _ _ _ (iSep _ _ _ I) k) as N. pose proof (sLt _ _ _ (iSep _ _ _ I) k) as LT. cbn beta in *. rewrite E in *. cbn [owned Loc] in *. rewrite app_nil_r in *. cbn [step]. rewrite E.
  assert (G : forall o s1 kind', (forall x, x < nxt s -> kind' x = kind x) -> kind' o = true -> wbytes (objs s1 o) = [] -> ~ In o (pool s1 ++ chan s1) ->
    (In o (pool s) \/ o = nxt s /\ nxt s1 = Datatypes.S (nxt s)) -> nxt s <= nxt s1 -> pcs s1 = pcs s -> chan s1 = chan s -> (forall x, In x (pool s1) -> In x (pool s)) -> NoDup (pool s1) -> (forall x, sound (objs s1 x)) -> (forall x, x < nxt s -> objs s1 x = objs s x) ->
    Inv kind' (t ++ []) (w_pc s1 k (PRun [mkF o (map IAct acts) (fun n => IntUint32 (Z.of_nat n))]))).
  { intros o s1 kind' K1 K2 WB NP LN LE PC CH PL ND WF OB. apply nodup_app in N. destruct N as (N1 & N2 & N3).
    assert (OW : owned (PRun [mkF o (map IAct acts) (fun n => IntUint32 (Z.of_nat n))]) = [o]).
    { cbn [owned flat_map]. unfold fobjs, iobjs. cbn [f_obj f_items]. now rewrite acts_noobj. }
    assert (PL' : forall x, In x (pool s1 ++ chan s1) -> In x (pool s ++ chan s)) by (intros x X; rewrite CH in X; apply in_app_or in X; apply in_or_app; destruct X as [X|X]; [left; now apply PL|now right]).
    apply (prog_inv kind kind' t s k); fields; trivial; rewrite ?upd_same, ?E, ?OW; trivial; try (intros; discriminate).
    - intros j J. rewrite upd_other by exact J. now rewrite PC.
    - apply nodup_app. split; [|split].
      + rewrite CH. apply nodup_app. split; [exact ND|]. split; [exact N2|]. intros x X. apply N3. now apply PL.
      + constructor; [tauto|constructor].
      + intros x X [Y|[]]. subst x. contradiction.
    - intros x X. cbn [owned]. rewrite app_nil_r. apply in_app_or in X. destruct X as [X|[X|[]]]; [left; now apply PL'|]. subst x. destruct LN as [LN|[LN LN']]; [left; apply in_or_app; now left|right; lia].
    - intros x X. apply PL in X. rewrite K1; [now apply (iKp _ _ _ I)|]. apply LT. apply in_or_app. now left.
    - intros x X. rewrite CH in X. rewrite K1; [now apply (iKc _ _ _ I)|]. apply LT. apply in_or_app. now right.
    - intros x L0 _. now apply OB.
    - intros x L0. rewrite OB by exact L0. apply evolve_refl.
    - intros x X. apply PL' in X. rewrite OB; [now apply (iIdle _ _ _ I)|now apply LT].
    - cbn [Loc]. split; [|split].
      + split; [apply tA|]. split; [|exact K2]. intros x X. unfold iobjs in X. cbn [f_items] in X. now rewrite acts_noobj in X.
      + intros x X. cbn [flat_map] in X. unfold iobjs in X. cbn [f_items] in X. now rewrite acts_noobj in X.
      + exists acts. split; [apply in_or_app; now left|]. split; [unfold fcalm; cbn [forallb f_items]; now rewrite acts_calm, andb_true_r|].
        cbn. now rewrite WB, acts_bytes.
    - intros x [].
    - intros x y [].
    - intros []. }
  apply nodup_app in N. destruct N as (N1 & N2 & N3).
  assert (AL : Inv (upd kind (nxt s) true) (t ++ []) (w_pc (snd (alloc s 512)) k (PRun [mkF (nxt s) (map IAct acts) (fun n => IntUint32 (Z.of_nat n))]))).
  { apply G; fields; cbn [alloc fst snd objs nxt pool chan pcs]; trivial.
    + apply wkind_new.
    + apply upd_same.
    + rewrite upd_same. apply new_sound.
    + intro X. specialize (LT (nxt s) X). lia.
    + now right.
    + lia.
    + intro x. spl x (nxt s); [apply new_sound|apply (iWf _ _ _ I)].
    + intros x L0. apply upd_other. lia. }
  unfold get_pool. destruct c as [i|]; [|now exists (upd kind (nxt s) true)]. destruct (nth_error (pool s) i) as [o|] eqn:NE; [|now exists (upd kind (nxt s) true)].
  assert (IO : In o (pool s)) by now apply nth_error_In in NE. exists kind. cbn [fst snd ok]. apply G; fields; trivial.
  - now apply (iKp _ _ _ I).
  - apply (iIdle _ _ _ I). apply in_or_app. now left.
  - intro X. apply in_app_or in X. destruct X as [X|X]; [now apply remove_gone in X|now apply (N3 o)].
  - now left.
  - intros x X. now apply remove_incl in X.
  - now apply remove_nodup.
  - exact (iWf _ _ _ I).
Qed.
(** writerPool.Put and return *)
Lemma ret_inv kind t s k o sl : Inv kind t s -> pcs s k = PPut o sl ->
  Inv kind (t ++ fst (step s (Go k None))) (snd (step s (Go k None))).
Proof.
  intros I E. pose proof (iLoc _ _ _ I k) as L. pose proof (sNd _ _ _ (iSep _ _ _ I) k) as N. cbn beta in *. rewrite E in *. cbn [owned Loc] in *. cbn [step]. rewrite E. destruct L as [L0 L]. pose proof L as (LO & KO & _).
  apply nodup_app in N. destruct N as (N1 & N2 & N3).
  assert (NO : ~ In o (pool s ++ chan s)) by (intro X; apply (N3 o X); now left).
  apply (prog_inv kind kind t s k); fields; trivial; rewrite ?upd_same, ?E; trivial; try (intros; discriminate); cbn [owned].
  - intros j J. now rewrite upd_other.
  - rewrite app_nil_r. cbn [app]. now constructor.
  - intros x X. left. rewrite app_nil_r in X. cbn [app] in X. apply in_or_app. destruct X as [X|X]; [right; now left|now left].
  - intros x [X|X]; [now subst x|now apply (iKp _ _ _ I)].
  - exact (iKc _ _ _ I).
  - exact (iWf _ _ _ I).
  - intros x _. apply evolve_refl.
  - intros x [X|X]; [now subst x|now apply (iIdle _ _ _ I)].
  - cbn [Loc]. destruct L as (A & B & C & D & acts & F & G & H). repeat (split; [assumption|]). exists acts. split; [apply in_or_app; now left|]. split; [exact G|]. intros NP. apply H. intro X. apply NP. apply in_or_app. now left.
  - intros x [<-|[]]. right. now exists o, sl.
  - intros o1 sl1 R. now left.
  - intros x y [X|[]]. now injection X as -> ->.
  - intros [X|[]]. discriminate.
Qed.
(** steps that are not of a running goroutine *)
Lemma call_inv kind t s k acts : Inv kind t s -> pcs s k = PNew -> Inv kind (t ++ [QCall k acts]) (w_pc s k (PGet acts)).
Proof.
  intros I E. pose proof (iLoc _ _ _ I k) as L. rewrite E in L. cbn [Loc] in L.
  split; fields.
  - apply (sep_step (pool s ++ chan s) (nxt s) (fun j => owned (pcs s j)) _ _ _ k (iSep _ _ _ I)); trivial.
    + intros j J. now rewrite upd_other.
    + rewrite upd_same. cbn [owned]. rewrite app_nil_r. pose proof (sNd _ _ _ (iSep _ _ _ I) k) as N. apply nodup_app in N. tauto.
    + rewrite upd_same. cbn [owned]. rewrite app_nil_r. intros o O. left. apply in_or_app. now left.
  - exact (iKp _ _ _ I).
  - exact (iKc _ _ _ I).
  - exact (iWf _ _ _ I).
  - exact (iIdle _ _ _ I).
  - intro j. spl j k; [cbn [Loc]; apply in_or_app; right; now left|]. apply (loc_transfer kind kind (nxt s) (nxt s) (objs s) (objs s) t); trivial.
    + exact (iLoc _ _ _ I j).
    + intros o O. apply in_or_app. now left.
    + intros a A. apply in_app_or in A. destruct A as [A|[A|[]]]; [exact A|]. injection A as -> ->. congruence.
    + intro P. apply in_or_app. now left.
    + intros o O. apply (sLt _ _ _ (iSep _ _ _ I) j). apply in_or_app. now right.
    + now split.
    + intros o sl _ (_ & _ & AW & _). now split.
  - intros j j' o sl o' sl' J R R'. spl j k; [discriminate|]. spl j' k; [discriminate|]. now apply (iApart _ _ _ I j j').
  - intros j o sl R. apply in_app_or in R. destruct R as [R|[R|[]]]; [|discriminate]. apply (iRet _ _ _ I) in R. spl j k; [congruence|exact R].
  - intros j P. apply in_app_or in P. destruct P as [P|[P|[]]]; [|discriminate]. destruct (iPan _ _ _ I j P) as (a & A & B). exists a. split; [apply in_or_app; now left|exact B].
  - intros j P. spl j k; [discriminate|]. apply in_or_app. left. now apply (iEnd _ _ _ I).
  - intros j a a' A A'. apply in_app_or in A, A'. destruct A as [A|[A|[]]]; destruct A' as [A'|[A'|[]]].
    + now apply (iOne _ _ _ I j).
    + injection A' as <- <-. now apply L in A.
    + injection A as <- <-. now apply L in A'.
    + congruence.
Qed.
Lemma drop_inv kind t s i : Inv kind t s -> Inv kind (t ++ []) (mkSt (objs s) (nxt s) (remove_nth i (pool s)) (chan s) (pcs s)).
Proof.
  intro I. rewrite app_nil_r. assert (H : forall x, In x (remove_nth i (pool s) ++ chan s) -> In x (pool s ++ chan s)).
  { intros x X. apply in_app_or in X. apply in_or_app. destruct X as [X|X]; [left; now apply remove_incl in X|now right]. }
  destruct I as [[S1 S2 S3] I2 I3 I4 I5 I6 I7 I8 I9 I10 I11]. split; fields; trivial.
  - split; trivial.
    + intro k. specialize (S1 k). apply nodup_app in S1. destruct S1 as (A & B & C). apply nodup_app in A. destruct A as (A1 & A2 & A3). apply nodup_app. split; [apply nodup_app; split; [now apply remove_nodup|split; [exact A2|]]|split; [exact B|]].
      * intros x X. apply A3. now apply remove_incl in X.
      * intros x X. apply C. now apply H.
    + intros k o O. apply (S3 k). apply in_app_or in O. apply in_or_app. destruct O as [O|O]; [left; now apply H|now right].
  - intros o O. apply I2. now apply remove_incl in O.
  - intros o O. apply I5. now apply H.
Qed.
Lemma poke_inv kind t s k o sl i v : Inv kind t s -> pcs s k = PRet o sl -> i < s_len sl -> Inv kind (t ++ [QPoke k]) (w_obj s o (poke (objs s o) sl i v)).
Proof.
  intros I E IL. pose proof (iLoc _ _ _ I k) as L. rewrite E in L. cbn [Loc] in L. destruct L as (LO & KO & AW & LN & acts & A & B & C).
  assert (WB : forall x, wbytes (upd (objs s) o (poke (objs s o) sl i v) x) = wbytes (objs s x)).
  { intro x. spl x o; [|reflexivity]. apply poke_wbytes; trivial; apply (iWf _ _ _ I o). }
  assert (NC : forall j a, In (QCall j a) (t ++ [QPoke k]) -> In (QCall j a) t).
  { intros j a X. apply in_app_or in X. destruct X as [X|[X|[]]]; [exact X|discriminate]. }
  split; fields.
  - exact (iSep _ _ _ I).
  - exact (iKp _ _ _ I).
  - exact (iKc _ _ _ I).
  - intro x. spl x o; [|apply (iWf _ _ _ I)]. destruct (iWf _ _ _ I o) as [SW SF]. now apply poke_sound.
  - intros x X. rewrite WB. now apply (iIdle _ _ _ I).
  - intro j. destruct (Nat.eq_dec j k) as [->|J].
    + rewrite E. cbn [Loc]. unfold Res. rewrite upd_same. split; [exact LO|]. split; [exact KO|]. split; [now apply poke_away|]. split; [now apply poke_length|].
      exists acts. split; [apply in_or_app; now left|]. split; [exact B|]. intros NP. exfalso. apply NP. apply in_or_app. right. now left.
    + apply (loc_transfer kind kind (nxt s) (nxt s) (objs s) (upd (objs s) o (poke (objs s o) sl i v)) t); trivial.
      * exact (iLoc _ _ _ I j).
      * intros x X. apply in_or_app. now left.
      * intros a X. now apply NC.
      * intro P. apply in_or_app. now left.
      * intros x X. apply (sLt _ _ _ (iSep _ _ _ I) j). apply in_or_app. now right.
      * intros x X. split; [apply WB|]. intro K. apply upd_other. intros ->. congruence.
      * intros x sl' R (_ & _ & AW' & _). spl x o; [|now split]. split; [now apply poke_away|]. apply poke_apart; trivial.
        assert (P : apart o sl' o sl) by (apply (iApart _ _ _ I j k); trivial; now rewrite E). destruct P as [P|P]; [congruence|]. exact P.
  - exact (iApart _ _ _ I).
  - intros j x y R. apply in_app_or in R. destruct R as [R|[R|[]]]; [|discriminate]. now apply (iRet _ _ _ I).
  - intros j P. apply in_app_or in P. destruct P as [P|[P|[]]]; [|discriminate]. destruct (iPan _ _ _ I j P) as (a & X & Y). exists a. split; [apply in_or_app; now left|exact Y].
  - intros j P. apply in_or_app. left. now apply (iEnd _ _ _ I).
  - intros j a a' X X'. apply NC in X, X'. now apply (iOne _ _ _ I j).
Qed.
Lemma step_inv kind t s e : Inv kind t s -> exists kind', Inv kind' (t ++ fst (step s e)) (snd (step s e)).
Proof.
  intro I. assert (Z : exists kind', Inv kind' (t ++ fst (ok s)) (snd (ok s))) by (exists kind; cbn; now rewrite app_nil_r).
  destruct e as [k acts|k c|i|k i v]; cbn [step].
  - destruct (pcs s k) eqn:E; try exact Z. exists kind. now apply call_inv.
  - destruct (pcs s k) as [|acts|fs|o sl|o sl|] eqn:E; try exact Z.
    + pose proof (get_inv kind t s k c acts I E) as G. cbn [step] in G. rewrite E in G. exact G.
    + destruct fs as [|[o its sz] fs]; [exact Z|]. destruct its as [|[a|o' sl|o'] its].
      * destruct fs as [|[p its' sz'] fs]; exists kind; [now apply end_inv|now apply close_inv].
      * destruct a as [c'|sz' body|]; cbn [step_run].
        -- exists kind. apply (write_inv kind t s k o (IAct (Emit c')) its sz fs); trivial.
        -- pose proof (open_inv kind t s k o sz' body its sz fs I E) as G. cbn [step] in G. rewrite E in G. cbn [step_run] in G. exact G.
        -- exists kind. apply (boom_inv kind t s k o its sz fs I E).
      * cbn [step_run]. exists kind. apply (write_inv kind t s k o (ICopy o' sl) its sz fs); trivial. rewrite put_ok by exact Logic.I. reflexivity.
      * cbn [step_run]. exists kind. now apply put_inv.
    + pose proof (ret_inv kind t s k o sl I E) as G. cbn [step] in G. rewrite E in G. now exists kind.
  - exists kind. now apply drop_inv.
  - destruct (pcs s k) as [|acts|fs|o sl|o sl|] eqn:E; try exact Z. destruct (Nat.ltb_spec i (s_len sl)) as [L|L]; [|exact Z]. exists kind. now apply poke_inv.
Qed.
Lemma run_inv es : forall kind t s t' s', Inv kind t s -> run s es = (t', s') -> exists kind', Inv kind' (t ++ t') s'.
Proof.
  induction es as [|e es IH]; intros kind t s t' s' I E; cbn [run] in E.
  - injection E as <- <-. exists kind. now rewrite app_nil_r.
  - destruct (step_inv kind t s e I) as [k1 I1]. destruct (step s e) as [o s1]. destruct (run s1 es) as [o2 s2] eqn:R. injection E as <- <-. rewrite app_assoc. now apply (IH k1 _ s1).
Qed.
Lemma start_inv es t s : start es = (t, s) -> exists kind, Inv kind t s.
Proof. intro E. exact (run_inv es _ [] s_init t s init_inv E). Qed.
