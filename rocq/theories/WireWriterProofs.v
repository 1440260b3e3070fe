(** BufWriter/HeaderWriter: the bytes sent plus the bytes buffered are the emitted frames. *)
From Coq Require Import ZArith List Bool Arith Lia.
Import ListNotations.
From Verif Require Import Base WireModel WireSpec.
Open Scope Z_scope.

Arguments Nat.div : simpl never.
Arguments Nat.ltb : simpl never.

Definition pending (w : bufw) : list Z :=
  match w_buf w with None => [] | Some b => firstn (w_wr w) b end.
Definition sent (w : bufw) : list Z := w_out w ++ pending w.
Definition winv (w : bufw) : Prop :=
  match w_buf w with
  | None => w_wr w = 0%nat
  | Some b => length b = WBUF /\ (w_wr w <= length b)%nat
  end.
Definition prefix (a b : list Z) : Prop := exists c, b = a ++ c.

Lemma prefix_app a b c : prefix a b -> prefix a (b ++ c).
Proof. intros [d ->]. exists (d ++ c). rewrite app_assoc; auto. Qed.
Lemma prefix_refl a : prefix a a.
Proof. exists []. rewrite app_nil_r; auto. Qed.
Lemma prefix_firstn o k (d : list Z) : prefix (o ++ firstn k d) (o ++ d).
Proof. exists (skipn k d). rewrite <- app_assoc, firstn_skipn; auto. Qed.

(** outcome of a call that emits exactly [d] *)
Definition post (w : bufw) (d : list Z) (r : wres) : Prop :=
  match r with
  | WOk w' => winv w' /\ sent w' = sent w ++ d
  | WErr w' => prefix (w_out w') (sent w ++ d)
  | WPanic => False
  end.

Lemma WBUF_val : WBUF = Z.to_nat 4096. Proof. reflexivity. Qed.
Lemma WBUF_big : (4096 <= WBUF)%nat.
Proof. unfold WBUF. lia. Qed.
Lemma WBUF_quarter : (WBUF / 4 <= WBUF)%nat.
Proof. apply Nat.div_le_upper_bound; lia. Qed.
Global Opaque WBUF.

Lemma flush_post w : winv w ->
  match w_flush w with
  | WOk w' => winv w' /\ sent w' = sent w /\ w_wr w' = 0%nat /\ (exists b, w_buf w' = Some b)
              /\ w_out w' = sent w
  | WErr w' => prefix (w_out w') (sent w)
  | WPanic => False
  end.
Proof.
  intros I. unfold w_flush, winv, sent, pending in *.
  destruct (0 <? w_wr w)%nat eqn:E.
  - apply Nat.ltb_lt in E. destruct (w_buf w) as [b|] eqn:B; [|lia].
    destruct I as [I1 I2].
    destruct (length b <? w_wr w)%nat eqn:E2; [apply Nat.ltb_lt in E2; lia|].
    unfold w_write.
    destruct (w_script w) as [|[k|] s]; simpl; rewrite ?B; simpl; rewrite ?app_nil_r.
    + repeat split; try lia; eauto.
    + apply prefix_firstn.
    + repeat split; try lia; eauto.
  - apply Nat.ltb_ge in E. assert (w_wr w = 0)%nat by lia.
    destruct (w_buf w) as [b|] eqn:B; simpl; rewrite ?B, H; simpl; rewrite ?app_nil_r.
    + repeat split; try lia; eauto.
    + rewrite repeat_length. repeat split; try lia; eauto.
Qed.

Lemma write_post w d : winv w -> w_wr w = 0%nat -> post w d (w_write w d).
Proof.
  intros I W. unfold w_write, post, sent, pending, winv in *.
  destruct (w_script w) as [|[k|] s]; simpl; destruct (w_buf w) as [b|];
    rewrite ?W in *; simpl; rewrite ?app_nil_r; try apply prefix_firstn; intuition lia.
Qed.

Lemma put_post w d : winv w -> (w_wr w + length d <= w_len w)%nat ->
  post w d (w_put w d (length d)).
Proof.
  intros I L. unfold w_put, w_len, post, sent, pending, winv in *.
  destruct (w_buf w) as [b|] eqn:B; simpl.
  - destruct (length b <? w_wr w + length d)%nat eqn:E; [apply Nat.ltb_lt in E; lia|].
    simpl. rewrite overwrite_length by lia. rewrite firstn_overwrite by lia.
    rewrite app_assoc. intuition lia.
  - destruct d; simpl in *; [|lia]. rewrite !app_nil_r. intuition lia.
Qed.

(** put of [d], advancing further over stale bytes *)
Lemma put_stale_post w d adv : winv w -> (length d <= adv)%nat -> (w_wr w + adv <= w_len w)%nat ->
  d <> [] ->
  exists x, length x = (adv - length d)%nat /\ post w (d ++ x) (w_put w d adv).
Proof.
  intros I A L D. unfold w_put, w_len, post, sent, pending, winv in *.
  destruct (w_buf w) as [b|] eqn:B; simpl.
  - destruct (length b <? w_wr w + length d)%nat eqn:E; [apply Nat.ltb_lt in E; lia|].
    exists (firstn (adv - length d) (skipn (w_wr w + length d) b)).
    simpl. rewrite overwrite_length by lia.
    split. rewrite firstn_length, skipn_length. lia.
    split. lia. rewrite <- app_assoc. f_equal.
    unfold overwrite. rewrite firstn_app, firstn_length, firstn_firstn.
    rewrite (Nat.min_r (w_wr w + adv)) by lia.
    rewrite (Nat.min_l (w_wr w)) by lia. f_equal.
    replace (w_wr w + adv - w_wr w)%nat with (length d + (adv - length d))%nat by lia.
    rewrite firstn_app_2. auto.
  - destruct d; simpl in *; [congruence|lia].
Qed.

Lemma post_sent w w' d r : sent w' = sent w -> post w' d r -> post w d r.
Proof. unfold post. intros E. rewrite E. auto. Qed.

Lemma Write_post w d : winv w -> post w d (w_Write w d).
Proof.
  intros I. unfold w_Write.
  destruct ((w_len w <? w_wr w + length d)%nat ||
    ((w_len w / 4 <? length d)%nat && (w_len w / 4 <? w_wr w)%nat)) eqn:E.
  - pose proof (flush_post w I) as F. destruct (w_flush w) as [w'|w'|]; simpl.
    + destruct F as (I' & S' & W' & (b & B) & _).
      destruct (w_len w' / 4 <? length d)%nat eqn:E2.
      * apply (post_sent w w'); auto. apply write_post; auto.
      * apply Nat.ltb_ge in E2.
        assert (w_wr w' + length d <= w_len w')%nat.
        { unfold w_len in *. unfold winv in I'. rewrite B in *. destruct I' as [L _]. rewrite L in *.
          pose proof WBUF_quarter. lia. }
        apply (post_sent w w'); auto. apply put_post; auto.
    + apply prefix_app; auto.
    + auto.
  - apply orb_false_iff in E. destruct E as [E _]. apply Nat.ltb_ge in E.
    apply put_post; auto.
Qed.

Lemma fixed_post (k : nat) w d : winv w -> length d = k -> (k <= 12)%nat ->
  post w d (if (w_len w <? w_wr w + k)%nat then w_bind (w_flush w) (fun w => w_put w d k) else w_put w d k).
Proof.
  intros I L K. destruct (w_len w <? w_wr w + k)%nat eqn:E.
  - pose proof (flush_post w I) as F. destruct (w_flush w) as [w'|w'|]; simpl; auto.
    + destruct F as (I' & S' & W' & (b & B) & _).
      assert (w_wr w' + length d <= w_len w')%nat.
      { unfold w_len in *. unfold winv in I'. rewrite B in *. pose proof WBUF_big. lia. }
      rewrite <- L. apply (post_sent w w'); auto. apply put_post; auto.
    + apply prefix_app; auto.
  - apply Nat.ltb_ge in E. rewrite <- L. apply put_post; auto; lia.
Qed.

Lemma Write_u32_post w i : winv w -> post w (le_enc 4 i) (w_Write_u32 w i).
Proof. intros. unfold w_Write_u32. apply (fixed_post 4); auto. lia. Qed.

Lemma Write3_u32_post w i j k : winv w ->
  post w (le_enc 4 i ++ le_enc 4 j ++ le_enc 4 k) (w_Write3_u32 w i j k).
Proof. intros. unfold w_Write3_u32. apply (fixed_post 12); auto. Qed.

Lemma WriteByte_post w i : winv w ->
  exists x, length x = 3%nat /\ post w (i :: x) (w_WriteByte w i).
Proof.
  intros I. unfold w_WriteByte. destruct (w_len w <? w_wr w + 4)%nat eqn:E.
  - pose proof (flush_post w I) as F. destruct (w_flush w) as [w'|w'|]; simpl; auto.
    + destruct F as (I' & S' & W' & (b & B) & _).
      assert (w_wr w' + 4 <= w_len w')%nat.
      { unfold w_len in *. unfold winv in I'. rewrite B in *. pose proof WBUF_big. lia. }
      destruct (put_stale_post w' [i] 4 I') as (x & Lx & P); simpl; auto; try lia; try congruence.
      exists x. split; auto. apply (post_sent w w'); auto.
    + exists [0;0;0]. split; auto. apply prefix_app; auto.
    + contradiction.
  - apply Nat.ltb_ge in E.
    destruct (put_stale_post w [i] 4 I) as (x & Lx & P); simpl; auto; try lia; try congruence.
    exists x. split; auto.
Qed.

Lemma le_enc_mod4 x : le_enc 4 (x mod 4294967296) = le32 x.
Proof.
  unfold le32. cbn [le_enc]. 
  assert (H: forall a, a mod 4294967296 mod 256 = a mod 256).
  { intros. symmetry. apply Znumtheory.Zmod_div_mod; try lia. exists 16777216; lia. }
  pose proof (Z.div_mod x 4294967296).
  assert (D: forall a m, 0 < m -> 4294967296 mod m = 0 -> 0 < m <= 4294967296 ->
     (a mod 4294967296) / m = (a / m) mod (4294967296 / m)).
  { intros a m Hm Hd Hr.
    assert (E: 4294967296 = m * (4294967296 / m)) by (apply Z.div_exact; lia).
    rewrite E at 1. rewrite Z.rem_mul_r; try lia.
    rewrite Z.mul_comm, Z.div_add by lia. rewrite Z.div_small by (apply Z.mod_pos_bound; lia). lia. }
  assert (MM: forall a k, 0 < k -> (k | 4294967296) -> (256 | k) -> a mod k mod 256 = a mod 256).
  { intros. symmetry. apply Znumtheory.Zmod_div_mod; try lia; auto. }
  rewrite !Z.div_div by lia. change (256*256) with 65536. change (256*(65536)) with 16777216.
  change (65536*256) with 16777216.
  rewrite (D x 256), (D x 65536), (D x 16777216) by (try reflexivity; lia).
  change (4294967296 / 256) with 16777216. change (4294967296/65536) with 65536.
  change (4294967296/16777216) with 256.
  rewrite H.
  assert (DV: forall a b, b mod a = 0 -> a <> 0 -> (a | b)) by (intros; apply Z.mod_divide; auto).
  rewrite !MM; try reflexivity; apply DV; (reflexivity || discriminate).
Qed.

Lemma le_enc4 x : le_enc 4 x = le32 x.
Proof.
  unfold le32. cbn [le_enc]. rewrite !Z.div_div by lia.
  change (256*256) with 65536. change (256*65536) with 16777216. change (65536*256) with 16777216. auto.
Qed.

Lemma post_bind w d1 d2 r f :
  post w d1 r -> (forall w', winv w' -> post w' d2 (f w')) -> post w (d1 ++ d2) (w_bind r f).
Proof.
  intros P F. destruct r as [w'|w'|]; simpl in *; auto.
  - destruct P as [I S]. specialize (F w' I). unfold post in *.
    rewrite S in F. rewrite app_assoc. auto.
  - rewrite app_assoc. apply prefix_app; auto.
Qed.

Lemma req_post w q : winv w ->
  post w (header (q_msg q) (zlen (q_body q)) (q_id q) ++ q_body q) (hw_request w q).
Proof.
  intros I. unfold hw_request, header. apply post_bind.
  - rewrite <- (le_enc_mod4 (zlen _)), <- (le_enc4 (q_msg q)), <- (le_enc4 (q_id q)).
    apply Write3_u32_post; auto.
  - intros. apply Write_post; auto.
Qed.

Lemma hw_op_post rc w o : winv w -> exists d, emits rc o d /\ post w d (hw_op rc w o).
Proof.
  intros I. destruct o as [q|p| |]; simpl.
  - eexists; split. constructor. apply req_post; auto.
  - unfold hw_response.
    assert (H3 : post w (header (p_msg p) (zlen (p_body p) + (if p_msg p =? PING then 0 else rc_len rc)) (p_id p))
       (w_Write3_u32 w (p_msg p) ((zlen (p_body p) + (if p_msg p =? PING then 0 else rc_len rc)) mod 4294967296) (p_id p))).
    { unfold header. rewrite <- (le_enc_mod4 (zlen _ + _)), <- (le_enc4 (p_msg p)), <- (le_enc4 (p_id p)).
      apply Write3_u32_post; auto. }
    destruct rc.
    + eexists. split. econstructor; eauto. apply post_bind; auto. intros w1 I1.
      apply post_bind. rewrite <- le_enc4. apply Write_u32_post; auto. intros. apply Write_post; auto.
    + destruct (w_Write3_u32 w (p_msg p) _ (p_id p)) as [w1|w1|] eqn:E; simpl in H3.
      * destruct H3 as [I1 S1].
        destruct (WriteByte_post w1 (p_code p mod 256) I1) as (x & Lx & P).
        exists (header (p_msg p) (zlen (p_body p) + (if p_msg p =? PING then 0 else rc_len RC1)) (p_id p)
                ++ (p_code p mod 256 :: x) ++ p_body p).
        split. econstructor; eauto.
        simpl w_bind. 
        pose proof (post_bind w1 _ (p_body p) _ (fun w => w_Write w (p_body p)) P) as PB.
        specialize (PB ltac:(intros; apply Write_post; auto)).
        unfold post in *. rewrite S1 in PB. rewrite app_assoc. apply PB.
      * exists (header (p_msg p) (zlen (p_body p) + (if p_msg p =? PING then 0 else rc_len RC1)) (p_id p)
                ++ (p_code p mod 256 :: [0;0;0]) ++ p_body p).
        split. econstructor; eauto. cbn [w_bind post]. rewrite app_assoc. apply prefix_app; auto.
      * contradiction.
    + eexists. split. econstructor; eauto. apply post_bind; auto. intros w1 I1.
      simpl w_bind. apply Write_post; auto.
  - eexists; split. constructor. unfold hw_ping.
    pose proof (req_post w (mkReq PING PING_ID []) I). simpl q_body in H. simpl q_msg in H. simpl q_id in H.
    rewrite app_nil_r in H. auto.
  - exists []. split. constructor. pose proof (flush_post w I). unfold post.
    rewrite app_nil_r. destruct (w_flush w); intuition.
Qed.

Lemma hw_run_post rc ops : forall w, winv w ->
  exists ds, Forall2 (emits rc) ops ds /\ post w (concat ds) (hw_run rc w ops).
Proof.
  induction ops as [|o ops IH]; intros w I.
  - exists []. split. constructor. simpl. rewrite app_nil_r. auto.
  - destruct (hw_op_post rc w o I) as (d & E & P). simpl.
    destruct (hw_op rc w o) as [w'|w'|]; simpl in *.
    + destruct P as [I' S']. destruct (IH w' I') as (ds & F & Q).
      exists (d :: ds). split. constructor; auto. simpl. unfold post in *.
      rewrite S' in Q. rewrite app_assoc. auto.
    + assert (exists ds, Forall2 (emits rc) ops ds) as [ds F].
      { clear. induction ops as [|o ops [ds F]]. exists []; constructor.
        assert (exists d, emits rc o d) as [d D].
        { destruct o; try (eexists; constructor; fail).
          destruct rc; eexists; econstructor; try reflexivity.
          exists [0;0;0]; split; reflexivity. }
        exists (d::ds). constructor; auto. }
      exists (d :: ds). split. constructor; auto. simpl. rewrite app_assoc. apply prefix_app; auto.
    + contradiction.
Qed.

Lemma winv_init s : winv (w_init s). Proof. reflexivity. Qed.

Lemma hw_run_app rc a b w : hw_run rc w (a ++ b) = w_bind (hw_run rc w a) (fun w => hw_run rc w b).
Proof.
  revert w; induction a; intros; simpl; auto.
  destruct (hw_op rc w a); simpl; auto.
Qed.

(** With a socket that accepts everything no call fails. *)
Lemma w_write_ok w d : Forall (fun x => x = None) (w_script w) ->
  exists w', w_write w d = WOk w' /\ Forall (fun x => x = None) (w_script w').
Proof.
  intros F. unfold w_write. destruct (w_script w) as [|x s] eqn:E.
  - eexists; split; [reflexivity|constructor].
  - inversion F; subst. eexists; split; [reflexivity|auto].
Qed.
Definition live (r : wres) : Prop :=
  match r with WOk w => Forall (fun x => x = None) (w_script w) | WErr _ => False | WPanic => True end.
Lemma w_flush_live w : Forall (fun x => x = None) (w_script w) -> live (w_flush w).
Proof.
  intros F. unfold w_flush.
  destruct (0 <? w_wr w)%nat.
  - destruct (w_buf w); [|exact Logic.I]. destruct (_ <? _)%nat; [exact Logic.I|].
    destruct (w_write_ok w (firstn (w_wr w) l) F) as (w' & -> & F'). simpl.
    destruct (w_buf w'); simpl; auto.
  - simpl. destruct (w_buf w); simpl; auto.
Qed.
Lemma w_put_live w d a : Forall (fun x => x = None) (w_script w) -> live (w_put w d a).
Proof.
  intros F. unfold w_put. destruct (w_buf w). destruct (_ <? _)%nat; simpl; auto.
  destruct d; simpl; auto.
Qed.
Lemma live_bind r f : live r -> (forall w, Forall (fun x => x = None) (w_script w) -> live (f w)) ->
  live (w_bind r f).
Proof. intros. destruct r; simpl in *; auto. Qed.
Lemma w_Write_live w d : Forall (fun x => x = None) (w_script w) -> live (w_Write w d).
Proof.
  intros F. unfold w_Write.
  destruct (_ || _). apply live_bind. apply w_flush_live; auto.
  intros. destruct (_ <? _)%nat. destruct (w_write_ok w0 d H) as (w' & -> & F'); auto.
  apply w_put_live; auto. apply w_put_live; auto.
Qed.
Lemma hw_op_live rc w o : Forall (fun x => x = None) (w_script w) -> live (hw_op rc w o).
Proof.
  intros F.
  assert (B3: forall i j k, live (w_Write3_u32 w i j k)).
  { intros. unfold w_Write3_u32. destruct (_ <? _)%nat. apply live_bind. apply w_flush_live; auto.
    intros; apply w_put_live; auto. apply w_put_live; auto. }
  destruct o; simpl; try (apply live_bind; [apply B3| intros; apply w_Write_live; auto]).
  - unfold hw_response. apply live_bind; auto. intros w1 F1. apply live_bind.
    + destruct rc; auto; unfold w_Write_u32, w_WriteByte;
      (destruct (_ <? _)%nat; [apply live_bind; [apply w_flush_live; auto| intros; apply w_put_live; auto] | apply w_put_live; auto]).
    + intros; apply w_Write_live; auto.
  - apply w_flush_live; auto.
Qed.
Lemma hw_run_live rc ops : forall w, Forall (fun x => x = None) (w_script w) -> live (hw_run rc w ops).
Proof.
  induction ops; intros; simpl; auto. apply live_bind; auto. apply hw_op_live; auto.
Qed.

(** The bytes on the wire after a successful history ending in Flush. *)
Lemma hw_run_flushed rc ops :
  exists ds w, Forall2 (emits rc) ops ds /\
    hw_run rc (w_init []) (ops ++ [OpFlush]) = WOk w /\ w_out w = concat ds.
Proof.
  destruct (hw_run_post rc ops (w_init []) (winv_init _)) as (ds & F & P).
  pose proof (hw_run_live rc (ops ++ [OpFlush]) (w_init []) (Forall_nil _)) as L.
  rewrite hw_run_app in *.
  destruct (hw_run rc (w_init []) ops) as [w|w|] eqn:E; simpl in *; try contradiction.
  destruct P as [I S]. pose proof (flush_post w I) as Fl.
  destruct (w_flush w) as [w'|w'|]; simpl in *; try contradiction.
  exists ds, w'. intuition. congruence.
Qed.
