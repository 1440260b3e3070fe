(** Property theorem C107: decoding arbitrary bytes returns. *)
From Coq Require Import ZArith List Bool Arith Lia.
Import ListNotations.
From Verif Require Import Base PrimModel PrimSpec PrimProofs CodecModel CodecSpec CodecProofs CodecRead SafeSpec SafeProofs.
Open Scope Z_scope.

Lemma with_u32 {A} s (old : A) g : wb s -> (forall n s', 0 <= n -> wb s' -> Runs s' (g n s')) -> Runs s (do! (c, s) <- call (RFixed U32) s; if failed s then Ok (old, s) else g (num c) s).
Proof.
  intros W G. destruct (call_runs (RFixed U32) s W Logic.I) as (v & s1 & E & M). pose proof (num_nn U32 s v s1 Logic.I W E) as N. rewrite E. cbn [bind].
  assert (R : Runs s1 (if failed s1 then Ok (old, s1) else g (num v) s1)) by (destruct (failed s1); [apply runs_ok, M|apply G; [exact N|apply M]]).
  destruct R as (y & s2 & E2 & M2). exists y, s2. split; [exact E2|now apply (mono_trans _ s1)].
Qed.
Lemma Read_runs t old s : readable t = true -> wb s -> Runs s (Read t old s).
Proof.
  intros R W. unfold readable in R.
  assert (G : Runs s (if failed s then Ok (old, s) else match Sz true t with None => Panic | Some _ => dec Auto t old s end)).
  { destruct (failed s); [now apply runs_ok|]. destruct (Sz true t); [|discriminate]. apply (proj1 dec_safe t Auto R old s W). }
  assert (T : forall (o : list Z) n s', 0 <= n -> wb s' -> Runs s' (take n s')) by (intros o n s' N W'; destruct (take_runs n s' N W') as (b & s2 & E & M & _); now exists b, s2).
  destruct t as [k|k| |n t|t|t|fs]; try exact G; cbn [Read].
  - destruct (failed s); [now apply runs_ok|]. apply with_u32; [exact W|]. intros n s' N W'. now apply T.
  - assert (B : forall k (old : list Z), Runs s (if failed s then Ok (old, s) else do! (c, s) <- call (RFixed U32) s; if failed s then Ok (old, s) else do! (l, s) <- make_slice (TNum k) (num c) s; do! (v, s) <- call (RBulk k l) s; Ok (nums v, s))).
    { clear - W. intros k old. destruct (failed s); [now apply runs_ok|]. apply (with_u32 s old (fun n s => do! (l, s) <- make_slice (TNum k) n s; do! (v, s) <- call (RBulk k l) s; Ok (nums v, s))); [exact W|]. intros n s' N W'.
      apply runs_bind; [now apply make_runs|]. intros l s2 _ M2. apply runs_bind; [apply call_runs; [apply M2|exact Logic.I]|]. intros v s3 _ M3. apply runs_ok, M3. }
    destruct t as [[]| | | | | |]; try exact G; try apply B. destruct (failed s); [now apply runs_ok|]. apply with_u32; [exact W|]. intros n s' N W'. now apply T.
Qed.
Lemma ReadTail_runs t old s : tail_readable t = true -> wb s -> Runs s (ReadTail t old s).
Proof.
  intros R W. unfold ReadTail. destruct (failed s) eqn:F; [now apply runs_ok|]. cbv zeta. apply runs_bind.
  2: { intros x s' _ M. destruct (_ =? 0); [apply runs_ok, M|]. eexists _, _. split; [reflexivity|]. destruct M as [A B C]. now split. }
  assert (G : forall t (old : val t), match Sz true t with None => false | Some _ => safe Tail t end = true -> Runs s (match Sz true t with None => Panic | Some _ => dec Tail t old s end)).
  { intros t0 old0 R0. destruct (Sz true t0); [|discriminate]. apply (proj1 dec_safe t0 Tail R0 old0 s W). }
  assert (B : forall k, Runs s (do! (l, s) <- make_slice (TNum k) (zlen (r_body (s_rd s)) / Z.of_nat (width k)) s; do! (v, s) <- call (RBulk k l) s; Ok (nums v, s))).
  { intro k. apply runs_bind; [apply make_runs; [|exact W]; apply Z.div_pos; [unfold zlen; lia|pose proof (width_pos k); lia]|]. intros l s2 _ M2. apply runs_bind; [apply call_runs; [apply M2|exact Logic.I]|]. intros v s3 _ M3. apply runs_ok, M3. }
  destruct t as [k|k| |n t|t|t|fs]; try (now apply G). destruct t as [[]| | | | | |]; try (now apply G); try apply B.
  apply runs_bind; [now apply call_runs|]. intros v s' _ M. apply runs_ok, M.
Qed.

(** ** C107 *)
(** Read of any bytes into a variable of a [readable] type returns, with a value or an error; nothing but a suffix-length worth of input is left and none is invented *)
Theorem C107_read_returns_partial : forall t, readable t = true -> forall old b al, bytes_ok b ->
  exists x rest e al', Read t old (mkSt (mkRd b None) al) = Ok (x, mkSt (mkRd rest e) al') /\ (length rest <= length b)%nat.
Proof.
  intros t R old b al W. destruct (Read_runs t old (mkSt (mkRd b None) al) R W) as (x & s' & E & M). destruct s' as [[rest e] al'].
  exists x, rest, e, al'. split; [exact E|apply M].
Qed.
Theorem C107_read_tail_returns_partial : forall t, tail_readable t = true -> forall old b al, bytes_ok b ->
  exists x rest e al', ReadTail t old (mkSt (mkRd b None) al) = Ok (x, mkSt (mkRd rest e) al') /\ (rest = [] \/ e <> None).
Proof.
  intros t R old b al W. destruct (ReadTail_runs t old (mkSt (mkRd b None) al) R W) as (x & s' & E & M). destruct s' as [[rest e] al'].
  exists x, rest, e, al'. split; [exact E|]. clear M. unfold ReadTail in E. cbn [failed s_rd r_err] in E. cbv zeta in E.
  match type of E with bind ?o _ = _ => destruct o as [[y s1]| |] end; cbn [bind] in E; try discriminate. destruct (zlen (r_body (s_rd s1)) =? 0) eqn:Z.
  - left. injection E as -> ->. cbn in Z. apply Z.eqb_eq in Z. unfold zlen in Z. destruct rest; [reflexivity|cbn in Z; lia].
  - right. unfold fail in E. injection E as <- <- <- <-. discriminate.
Qed.
(** size(ber) in front of a string, size(i64) in front of a slice of numbers, a slice of pointers and a slice of 16-bit numbers with size(no) at the end *)
Definition T1 := TStruct (FCons (TgSize PBer) TStr FNil).
Definition T2 := TStruct (FCons (TgSize P64) (TSl (TNum U16)) FNil).
Definition T3 := TSl (TPtr (TNum U16)).
Definition T4 := TStruct (FCons TgNo (TSl (TNum U16)) FNil).
Theorem C107_negative_size_panics_refuted :
  (forall old al, Read T1 old (mkSt (mkRd [129; 128; 128; 128; 128; 128; 128; 128; 128; 0; 65] None) al) = Panic) /\
  (forall old al, Read T2 old (mkSt (mkRd [254; 255; 255; 255; 255; 255; 255; 255; 65] None) al) = Panic).
Proof. split; [intros [old []] al; reflexivity|]. intros [[|x old] []] al; reflexivity. Qed.
Theorem C107_tail_of_numbers_panics_refuted : forall old b al, ReadTail T4 old (mkSt (mkRd b None) al) = Panic.
Proof. intros [old []] b al. reflexivity. Qed.
(** Read of a tail of pointers into an empty slice: the loop never ends, whatever number of iterations is allowed *)
Lemma hangs fuel c b al : tail_loop (zero (TPtr (TNum U16))) (dec Auto (TPtr (TNum U16))) fuel [] (mkSt (mkRd (c :: b) None) al) = Hang.
Proof. induction fuel as [|fuel IH]; [reflexivity|]. change (bind (tail_loop (zero (TPtr (TNum U16))) (dec Auto (TPtr (TNum U16))) fuel [] (mkSt (mkRd (c :: b) None) al)) (fun '(l, s) => Ok (@None Z :: l, s)) = Hang). now rewrite IH. Qed.
Theorem C107_tail_of_pointers_hangs_refuted : forall c b al,
  ReadTail T3 [] (mkSt (mkRd (c :: b) None) al) = Hang /\
  forall fuel, tail_loop (zero (TPtr (TNum U16))) (dec Auto (TPtr (TNum U16))) fuel [] (mkSt (mkRd (c :: b) None) al) = Hang.
Proof.
  intros c b al. split; [|intro fuel; apply hangs].
  change (ReadTail T3 [] (mkSt (mkRd (c :: b) None) al)) with (bind (tail_loop (zero (TPtr (TNum U16))) (dec Auto (TPtr (TNum U16))) (length (c :: b) + 0 + 1) [] (mkSt (mkRd (c :: b) None) al)) (fun '(x, s) => if zlen (r_body (s_rd s)) =? 0 then Ok (x, s) else Ok (x, fail s (ECodec 4)))).
  now rewrite hangs.
Qed.
(** non-trivial readable types: nested slices of structures with sized and counted fields *)
Definition Texs : flds := FCons TgAuto (TNum U32) (FCons (TgSize P8) (TSl (TStruct (FCons TgAuto TStr (FCons (TgCnt P16) (TSl (TVar U64)) FNil)))) (FCons (TgSize PBer) (TNum U16) (FCons (TgCnt P8) (TPtr (TSl TStr)) FNil))).
Example C107_ex : readable (TStruct Texs) = true /\ readable (TSl (TStruct Texs)) = true /\ tail_readable (TSl (TStruct Texs)) = true /\ tail_readable (TSl (TNum U64)) = true /\
  readable T1 = false /\ readable T2 = false /\ tail_readable T3 = false /\ tail_readable T4 = false.
Proof. vm_compute. repeat split. Qed.
Example C107_ex_runs : exists x s, Read (TStruct Texs) (zero (TStruct Texs)) (mkSt (mkRd [1; 0; 0; 0; 9; 1; 0; 0; 0; 65; 2; 0; 5; 6; 2; 7; 0; 1; 1; 0; 0; 0; 66; 99] None) []) = Ok (x, s) /\
  r_body (s_rd s) = [99] /\ r_err (s_rd s) = None /\ fst x = 1.
Proof. eexists _, _. split; [vm_compute; reflexivity|]. repeat split. Qed.
Print Assumptions C107_read_returns_partial. Print Assumptions C107_read_tail_returns_partial. Print Assumptions C107_negative_size_panics_refuted.
Print Assumptions C107_tail_of_numbers_panics_refuted. Print Assumptions C107_tail_of_pointers_hangs_refuted.
