(** Reading a stream of frames of which any prefix has arrived, in any pieces. *)
From Coq Require Import ZArith List Bool Arith Lia.
Import ListNotations.
From Verif Require Import Base WireModel WireSpec WireWriterProofs WireReaderProofs WireProps PairModel.
Open Scope Z_scope.

Lemma pieces_carry cuts : forall b, exists P rest, b = P ++ rest /\ carries (pieces cuts b) P.
Proof.
  induction cuts as [|k cuts IH]; intro b.
  - exists [], b. split; [reflexivity|constructor].
  - destruct (IH (skipn k b)) as (P & rest & E & C). exists (firstn k b ++ P), rest. split; [|constructor; exact C].
    rewrite <- app_assoc, <- E. symmetry. apply firstn_skipn.
Qed.

(** the calls made so far and the writer's state; [a]: no call has failed *)
Definition wrote (rc : rctype) (ops : list wop) (w : bufw) (a : bool) : Prop :=
  exists ds, Forall2 (emits rc) ops ds /\ prefix (w_out w) (concat ds) /\ (a = true -> winv w /\ sent w = concat ds).
Lemma wrote_init rc s : wrote rc [] (w_init s) true.
Proof. exists []. split; [constructor|]. split; [exists []; reflexivity|]. intros _. split; reflexivity. Qed.
Lemma wrote_step rc ops w o : wrote rc ops w true ->
  match hw_op rc w o with
  | WOk w' => wrote rc (ops ++ [o]) w' true
  | WErr w' => wrote rc (ops ++ [o]) w' false
  | WPanic => False
  end.
Proof.
  intros (ds & F & _ & A). destruct (A eq_refl) as [I S]. destruct (hw_op_post rc w o I) as (d & E & P).
  assert (F' : Forall2 (emits rc) (ops ++ [o]) (ds ++ [d])) by (apply Forall2_app; [exact F|now repeat constructor]).
  assert (C : concat (ds ++ [d]) = concat ds ++ d) by (rewrite concat_app; cbn; now rewrite app_nil_r).
  destruct (hw_op rc w o) as [w'|w'|]; cbn in P; [| |exact P]; exists (ds ++ [d]); (split; [exact F'|]); rewrite C.
  - destruct P as [I' S']. split; [|intros _; split; [exact I'|now rewrite S', S]]. exists (pending w'). rewrite <- S, <- S'. reflexivity.
  - split; [now rewrite <- S|discriminate].
Qed.
Lemma wrote_dead rc ops w a : wrote rc ops w a -> wrote rc ops w false.
Proof. intros (ds & F & P & _). exists ds. now repeat split. Qed.

(** prefixes *)
Lemma prefix_trans (a b c : list Z) : prefix a b -> prefix b c -> prefix a c.
Proof. intros [x ->] [y ->]. exists (x ++ y). now rewrite app_assoc. Qed.
Lemma prefix_split (P a b : list Z) : prefix P (a ++ b) -> (exists P', P = a ++ P' /\ prefix P' b) \/ (exists t, a = P ++ t /\ t <> []).
Proof.
  intros [c E]. destruct (le_lt_dec (length a) (length P)) as [L|L].
  - left. exists (skipn (length a) P). assert (Q : firstn (length a) (a ++ b) = firstn (length a) (P ++ c)) by now rewrite E.
    rewrite (firstn_app_exact a b) in Q by reflexivity. rewrite firstn_app in Q. replace (length a - length P)%nat with 0%nat in Q by lia. cbn in Q. rewrite app_nil_r in Q.
    assert (E1 : P = a ++ skipn (length a) P) by (rewrite Q at 1; symmetry; apply firstn_skipn). split; [exact E1|]. exists c.
    rewrite E1 in E. rewrite <- app_assoc in E. now apply app_inv_head in E.
  - right. exists (skipn (length P) a). assert (Q : firstn (length P) (a ++ b) = firstn (length P) (P ++ c)) by now rewrite E.
    rewrite (firstn_app_exact P c) in Q by reflexivity. rewrite firstn_app in Q. replace (length P - length a)%nat with 0%nat in Q by lia. cbn in Q. rewrite app_nil_r in Q.
    split; [rewrite <- Q at 1; symmetry; apply firstn_skipn|]. intro N. apply (f_equal (@length Z)) in N. rewrite skipn_length in N. cbn in N. lia.
Qed.

(** requests: what is read is a beginning of what was written *)
Lemma requests_prefix fuel : forall qs r P, rinv r -> Forall request_ok qs -> strm r P -> prefix P (concat (map request_frame qs)) ->
  exists rest, qs = fst (read_requests fuel r) ++ rest.
Proof.
  induction fuel as [|fuel IH]; intros qs r P I K S PR; [exists qs; reflexivity|].
  destruct qs as [|q qs].
  - destruct PR as [c E]. cbn in E. symmetry in E. apply app_eq_nil in E. destruct E as [-> _]. rewrite read_requests_eof by (auto; lia). exists []. reflexivity.
  - inversion K as [|? ? K1 K2]; subst. cbn [map concat] in PR. destruct (prefix_split _ _ _ PR) as [(P' & -> & PR')|(t & E & N)].
    + destruct (hr_request_ok r q P' I K1 S) as (r1 & x & E & I1 & _ & B1 & S1). cbn [read_requests]. rewrite E. destruct (IH qs r1 P' I1 K2 S1 PR') as [rest Q].
      destruct (read_requests fuel r1) as [l e]. cbn [fst] in *. exists rest. cbn [rq_msg rq_id rq_body app]. rewrite B1, Q. destruct q; reflexivity.
    + destruct (read_requests_cut (Datatypes.S fuel) r q P t I K1 S E N ltac:(lia)) as (e & -> & _). eexists. reflexivity.
Qed.

(** an incomplete response never yields a response *)
Lemma read_responses_cut rc fuel r p P t : rc <> RC1 -> rinv r -> response_ok rc p -> strm r P ->
  response_frame rc p = P ++ t -> t <> [] -> fst (read_responses rc fuel r) = [].
Proof.
  intros R1 I (K1 & K2 & K3 & K4) S E N. destruct fuel; [reflexivity|]. cbn [read_responses]. unfold hr_response.
  pose proof E as E0. unfold response_frame in E. set (c := code_bytes rc (p_msg p) (p_code p)) in *.
  destruct (le_lt_dec 12 (length P)) as [G|G].
  - destruct (Read_full r P 12 I S G) as (r1 & x & E1 & I1 & Z1 & F1 & B1 & S1). rewrite E1. cbn [r_bind]. rewrite B1.
    assert (H : firstn 12 P = header (p_msg p) (zlen c + zlen (p_body p)) (p_id p)).
    { apply (f_equal (firstn 12)) in E. rewrite (firstn_app_exact (header _ _ _)) in E by apply header_length. rewrite (firstn_app 12 P) in E. replace (12 - length P)%nat with 0%nat in E by lia. rewrite firstn_O, app_nil_r in E. symmetry. exact E. }
    rewrite H, header_u32_4, header_u32_0, header_u32_8 by auto.
    assert (LT : (length (skipn 12 P) < length c + length (p_body p))%nat).
    { apply (f_equal (@length _)) in E. rewrite !app_length, header_length in E. rewrite skipn_length. destruct t; [congruence|]. cbn [length] in E. lia. }
    assert (SK : c ++ p_body p = skipn 12 P ++ t).
    { apply (f_equal (skipn 12)) in E. rewrite skipn_app_exact in E by apply header_length. rewrite skipn_app in E. replace (12 - length P)%nat with 0%nat in E by lia. exact E. }
    destruct (p_msg p =? PING) eqn:EP.
    + subst c. unfold code_bytes in *. rewrite EP in *. cbn [length] in LT. change (zlen (@nil Z) + zlen (p_body p)) with (zlen (p_body p)). rewrite zlen_to_nat.
      destruct (Read_short r1 _ (length (p_body p)) I1 S1 ltac:(lia)) as [(_ & r' & ->)|(X & [(r' & ->)| ->])]; reflexivity.
    + destruct rc; [| congruence|].
      * subst c. unfold code_bytes in *. rewrite EP in *. change (length (le32 (p_code p))) with 4%nat in LT.
        replace (zlen (le32 (p_code p)) + zlen (p_body p)) with (4 + zlen (p_body p)) in * by reflexivity.
        destruct (4 + zlen (p_body p) <? 4) eqn:E4. { apply Z.ltb_lt in E4. pose proof (zlen_nonneg (p_body p)). lia. }
        destruct (le_lt_dec 4 (length (skipn 12 P))) as [G2|G2].
        -- destruct (Read_full r1 _ 4 I1 S1 G2) as (r2 & y & E2 & I2 & Z2 & F2 & B2 & S2). rewrite E2. cbn [r_bind]. rewrite B2.
           replace (4 + zlen (p_body p) - 4) with (zlen (p_body p)) by lia. rewrite zlen_to_nat.
           assert (LT2 : (length (skipn 4 (skipn 12 P)) < length (p_body p))%nat) by (rewrite skipn_length; lia).
           destruct (Read_short r2 _ _ I2 S2 LT2) as [(_ & r' & ->)|(X & [(r' & ->)| ->])]; reflexivity.
        -- destruct (Read_short r1 _ 4 I1 S1 ltac:(lia)) as [(_ & r' & ->)|(X & [(r' & ->)| ->])]; reflexivity.
      * subst c. unfold code_bytes in *. rewrite EP in *. cbn [length] in LT. change (zlen (@nil Z) + zlen (p_body p)) with (zlen (p_body p)). rewrite zlen_to_nat.
        destruct (Read_short r1 _ (length (p_body p)) I1 S1 ltac:(lia)) as [(_ & r' & ->)|(X & [(r' & ->)| ->])]; reflexivity.
  - destruct (Read_short r P 12 I S G) as [(-> & r' & ->)|(X & [(r' & ->)| ->])]; reflexivity.
Qed.
Lemma responses_prefix rc fuel : rc <> RC1 -> forall ps r P, rinv r -> Forall (response_ok rc) ps -> strm r P -> prefix P (concat (map (response_frame rc) ps)) ->
  exists rest, map (seen rc) ps = fst (read_responses rc fuel r) ++ rest.
Proof.
  intro R1. induction fuel as [|fuel IH]; intros ps r P I K S PR; [eexists; reflexivity|].
  destruct ps as [|p ps].
  - destruct PR as [c E]. cbn in E. symmetry in E. apply app_eq_nil in E. destruct E as [-> _]. rewrite read_responses_eof by (auto; lia). exists []. reflexivity.
  - inversion K as [|? ? K1 K2]; subst. cbn [map concat] in PR. destruct (prefix_split _ _ _ PR) as [(P' & -> & PR')|(t & E & N)].
    + destruct (hr_response_ok rc r p P' (or_introl R1) I K1 S) as (r1 & x & E & I1 & _ & B1 & S1). cbn [read_responses]. rewrite E. destruct (IH ps r1 P' I1 K2 S1 PR') as [rest Q].
      destruct (read_responses rc fuel r1) as [l e]. cbn [fst] in *. exists rest. cbn [rs_msg rs_id rs_code rs_body app map]. rewrite B1, Q. reflexivity.
    + rewrite (read_responses_cut rc _ r p P t R1 I K1 S E N). eexists. reflexivity.
Qed.

(** the n-th request read is the n-th written *)
Lemma nth_request rc ops w a cuts fuel n q : wrote rc ops w a -> Forall request_call ops ->
  nth_error (fst (read_requests fuel (r_init (pieces cuts (w_out w))))) n = Some q -> nth_error (requests_of ops) n = Some q.
Proof.
  intros (ds & F & PR & _) K H. destruct (requests_emitted rc ops ds K F) as [Q E]. destruct (pieces_carry cuts (w_out w)) as (P & rest & E1 & C).
  assert (PP : prefix P (concat (map request_frame (requests_of ops)))) by (rewrite <- E; apply (prefix_trans _ (w_out w)); [exists rest; exact E1|exact PR]).
  destruct (requests_prefix fuel _ _ P (rinv_init _) Q (strm_init _ _ C) PP) as [l ->]. rewrite nth_error_app1; [exact H|]. apply nth_error_Some. congruence.
Qed.
(** the n-th response read is the n-th written *)
Lemma nth_response rc dial ops w a cuts fuel n x : rc <> RC1 -> (rc = RC4 -> Forall (fun p => p_msg p <> PING) (responses_of ops)) ->
  wrote rc ops w a -> Forall (response_call rc) ops ->
  (dial = true -> exists p, nth_error (responses_of ops) 0 = Some p /\ seen rc p = mkRes PING PING_ID RC_OK []) ->
  nth_error (client_reads dial rc fuel (r_init (pieces cuts (w_out w)))) n = Some x -> exists p, nth_error (responses_of ops) n = Some p /\ x = seen rc p.
Proof.
  intros R1 NP (ds & F & PR & _) K D H. destruct (responses_emitted rc ops ds R1 NP K F) as [Q E]. destruct (pieces_carry cuts (w_out w)) as (P & rest & E1 & C).
  assert (PP : prefix P (concat (map (response_frame rc) (responses_of ops)))) by (rewrite <- E; apply (prefix_trans _ (w_out w)); [exists rest; exact E1|exact PR]).
  assert (FIN : forall l l2, map (seen rc) (responses_of ops) = l ++ l2 -> nth_error l n = Some x -> exists p, nth_error (responses_of ops) n = Some p /\ x = seen rc p).
  { intros l l2 Q1 Q2. assert (Q3 : nth_error (map (seen rc) (responses_of ops)) n = Some x) by (rewrite Q1, nth_error_app1; [exact Q2|apply nth_error_Some; congruence]).
    rewrite nth_error_map in Q3. destruct (nth_error (responses_of ops) n) as [p|]; [|discriminate]. exists p. split; [reflexivity|]. now injection Q3. }
  unfold client_reads in H. destruct dial.
  - destruct (D eq_refl) as (p & D1 & D2). destruct (responses_of ops) as [|p0 ps]; [discriminate|]. injection D1 as ->. pose proof (strm_init _ _ C) as S.
    inversion Q as [|? ? K1 K2]; subst. cbn [map concat] in PP. unfold seen in D2. injection D2 as M1 M2 M3 M4. destruct p as [pm pi pc pb]. cbn [p_msg p_id p_body p_code] in *. subst pm pi pb.
    assert (FR : response_frame rc (mkRes PING PING_ID pc []) = header PING 0 PING_ID) by reflexivity. rewrite FR in PP.
    destruct (prefix_split _ _ _ PP) as [(P' & -> & PR')|(t & E2 & N)].
    + destruct (Read_prefix _ _ _ (rinv_init _) S) as (r1 & h & E3 & I1 & _ & _ & B1 & S1). unfold hr_ping in H. rewrite header_length in E3. rewrite E3 in H. cbn [r_bind] in H.
      rewrite B1, header_u32_0, header_u32_8 in H by (unfold u32_ok, PING, PING_ID; lia). rewrite !Z.eqb_refl in H. cbn [andb] in H.
      destruct (responses_prefix rc fuel R1 ps r1 P' I1 K2 S1 PR') as [l Q1]. destruct n as [|n]; [cbn in H; injection H as <-; exists (mkRes PING PING_ID pc []); split; reflexivity|].
      cbn [nth_error] in *. assert (Q3 : nth_error (map (seen rc) ps) n = Some x) by (rewrite Q1, nth_error_app1; [exact H|apply nth_error_Some; congruence]).
      rewrite nth_error_map in Q3. destruct (nth_error ps n) as [p|]; [|discriminate]. exists p. split; [reflexivity|]. now injection Q3.
    + unfold hr_ping in H. assert (G : (length P < 12)%nat). { apply (f_equal (@length Z)) in E2. rewrite app_length, header_length in E2. destruct t; [congruence|]. cbn [length] in E2. lia. }
      destruct (Read_short _ _ 12 (rinv_init _) S G) as [(_ & r' & Q1)|(_ & [(r' & Q1)|Q1])]; rewrite Q1 in H; cbn [r_bind] in H; destruct n; discriminate.
  - destruct (responses_prefix rc fuel R1 _ _ P (rinv_init _) Q (strm_init _ _ C) PP) as [l Q1]. exact (FIN _ _ Q1 H).
Qed.
(** a ping can be read only if something was written *)
Lemma hello_written rc ops w a cuts r u : wrote rc ops w a -> hr_ping (r_init (pieces cuts (w_out w))) = ROk r u -> Forall (response_call rc) ops -> responses_of ops <> [].
Proof.
  intros (ds & F & PR & _) H K N. assert (E : concat ds = []).
  { clear - F K N. induction F as [|o d ops ds E F IH]; [reflexivity|]. inversion K as [|? ? K1 K2]; subst. destruct o; cbn in *; try contradiction; [discriminate|]. inversion E; subst. cbn. now apply IH. }
  rewrite E in PR. destruct PR as [c Q]. symmetry in Q. apply app_eq_nil in Q. destruct Q as [Q _]. rewrite Q in H. destruct (pieces_carry cuts []) as (P & rest & E1 & C).
  symmetry in E1. apply app_eq_nil in E1. destruct E1 as [-> _]. unfold hr_ping in H.
  destruct (Read_short _ _ 12 (rinv_init _) (strm_init _ _ C) ltac:(cbn; lia)) as [(_ & r' & Q1)|(X & _)]; [rewrite Q1 in H; discriminate|now elim X].
Qed.
