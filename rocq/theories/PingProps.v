(** Property theorem C156: which bytes a dial takes for the answer to its ping (net/header.go:106-119, called by Loop, net/client/connection/connection.go:115). *)
From Coq Require Import ZArith List Bool Arith Lia.
Import ListNotations.
From Verif Require Import Base WireModel WireSpec WireReaderProofs.
Open Scope Z_scope.

(** The first twelve bytes name the ping type and the ping id; the length field between them may be anything. *)
Definition is_ping_head (S : list Z) : Prop := exists len T, length len = 4%nat /\ S = le32 PING ++ len ++ le32 PING_ID ++ T.

Lemma four l : bytes_ok l -> length l = 4%nat -> l = le32 (le_dec l).
Proof.
  intros B L. transitivity (le_enc 4 (le_dec l)).
  - rewrite <- L. symmetry. now apply le_enc_dec.
  - unfold le32. cbn [le_enc]. rewrite !Z.div_div by lia. reflexivity.
Qed.
Lemma bytes_firstn n l : bytes_ok l -> bytes_ok (firstn n l).
Proof. intros B. rewrite <- (firstn_skipn n l) in B. now apply bytes_ok_app in B. Qed.
Lemma bytes_skipn n l : bytes_ok l -> bytes_ok (skipn n l).
Proof. intros B. rewrite <- (firstn_skipn n l) in B. now apply bytes_ok_app in B. Qed.

(** Whatever the peer sends and however the reads cut it: the ping is accepted iff the stream starts with a ping head, and then twelve
    bytes, no more, are gone from it; twelve bytes that are not a ping head give the error "Iproto ping failed"; fewer than twelve are never accepted. *)
Theorem C156_ping_accepts_exactly_pings : forall script S, bytes_ok S -> carries script S ->
  ((exists r, hr_ping (r_init script) = ROk r tt) <-> is_ping_head S) /\
  (forall r, hr_ping (r_init script) = ROk r tt -> strm r (skipn 12 S)) /\
  ((12 <= length S)%nat -> ~ is_ping_head S -> exists r, hr_ping (r_init script) = RErr r EPingFailed) /\
  (S = [] -> exists r, hr_ping (r_init script) = RErr r EEOF).
Proof.
  intros script S B C. apply strm_init in C.
  destruct (Nat.le_gt_cases 12 (length S)) as [L|L].
  - destruct (Read_full _ _ 12 (rinv_init _) C L) as (r1 & h & E1 & I1 & Z1 & F1 & B1 & S1).
    assert (HP : hr_ping (r_init script) = if (u32_at (firstn 12 S) 0 =? PING) && (u32_at (firstn 12 S) 8 =? PING_ID) then ROk r1 tt else RErr r1 EPingFailed).
    { unfold hr_ping. rewrite E1. cbn [r_bind]. now rewrite B1. }
    assert (Q : ((u32_at (firstn 12 S) 0 =? PING) && (u32_at (firstn 12 S) 8 =? PING_ID)) = true <-> is_ping_head S).
    { rewrite andb_true_iff, !Z.eqb_eq. unfold u32_at. split.
      - intros [X Y]. exists (firstn 4 (skipn 4 S)), (skipn 12 S). split; [rewrite firstn_length, skipn_length; lia|].
        rewrite skipn_O, firstn_firstn in X. cbn [Nat.min] in X.
        rewrite skipn_firstn_comm in Y. cbn [Nat.sub] in Y. rewrite firstn_firstn in Y. cbn [Nat.min] in Y.
        rewrite <- X, <- Y. rewrite <- four by (auto using bytes_firstn; rewrite firstn_length; lia).
        rewrite <- four by (auto using bytes_firstn, bytes_skipn; rewrite firstn_length, skipn_length; lia).
        do 12 (destruct S as [|? S]; [cbn in L; lia|]). reflexivity.
      - intros (len & T & LL & ->). do 4 (destruct len as [|? len]; [discriminate|]). destruct len; [|discriminate]. split; reflexivity. }
    destruct (_ && _) eqn:D; rewrite HP.
    + split; [split; [intros _; now apply Q|eauto]|]. split; [intros r E; now injection E as <-|]. split; [intros _ N; now elim N; apply Q|]. intros ->. cbn in L. lia.
    + split; [split; [intros [r E]; discriminate|intros X; apply Q in X; discriminate]|]. split; [discriminate|]. split; [eauto|]. intros ->. cbn in L. lia.
  - assert (N : ~ is_ping_head S). { intros (len & T & LL & ->). rewrite !app_length, LL in L. cbn in L. lia. }
    destruct (Read_short _ _ _ (rinv_init _) C L) as [[-> [r' E]]|[NE [[r' E]|E]]]; unfold hr_ping; rewrite E; cbn [r_bind];
      (split; [split; [intros [r X]; discriminate|intros X; contradiction]|]); (split; [discriminate|]); (split; [lia|]); intros X; eauto; contradiction.
Qed.
Print Assumptions C156_ping_accepts_exactly_pings.

(** A ping reply cut in two reads, with bytes of the next frame behind it, is accepted; the reply with another id is refused. *)
Definition good_bytes : list Z := le32 PING ++ le32 0 ++ le32 PING_ID ++ [7; 8].
Definition bad_bytes : list Z := le32 PING ++ le32 0 ++ le32 3 ++ [7; 8].
Example C156_example :
  (exists script, carries script good_bytes /\ bytes_ok good_bytes /\ is_ping_head good_bytes /\ exists r, hr_ping (r_init script) = ROk r tt) /\
  (exists script, carries script bad_bytes /\ bytes_ok bad_bytes /\ ~ is_ping_head bad_bytes /\ exists r, hr_ping (r_init script) = RErr r EPingFailed).
Proof.
  assert (G : bytes_ok good_bytes) by (repeat constructor; vm_compute; intuition discriminate).
  assert (B : bytes_ok bad_bytes) by (repeat constructor; vm_compute; intuition discriminate).
  assert (CG : carries [mkChunk (firstn 5 good_bytes) None; mkChunk (skipn 5 good_bytes) (Some EEOF)] good_bytes).
  { rewrite <- (firstn_skipn 5 good_bytes) at 3. apply carries_cons, carries_eof. }
  assert (CB : carries [mkChunk (firstn 5 bad_bytes) None; mkChunk (skipn 5 bad_bytes) (Some EEOF)] bad_bytes).
  { rewrite <- (firstn_skipn 5 bad_bytes) at 3. apply carries_cons, carries_eof. }
  assert (PG : is_ping_head good_bytes) by (exists (le32 0), [7; 8]; now split).
  assert (PB : ~ is_ping_head bad_bytes).
  { intros (len & T & L & E). do 4 (destruct len as [|? len]; [discriminate|]). destruct len; discriminate. }
  split; [exists [mkChunk (firstn 5 good_bytes) None; mkChunk (skipn 5 good_bytes) (Some EEOF)]|exists [mkChunk (firstn 5 bad_bytes) None; mkChunk (skipn 5 bad_bytes) (Some EEOF)]].
  - split; [exact CG|]. split; [exact G|]. split; [exact PG|]. now apply (C156_ping_accepts_exactly_pings _ _ G CG).
  - split; [exact CB|]. split; [exact B|]. split; [exact PB|]. apply (C156_ping_accepts_exactly_pings _ _ B CB); [cbn; lia|exact PB].
Qed.
