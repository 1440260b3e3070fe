(** A decoder that succeeds depends on the bytes it consumes, and on nothing behind them. *)
From Coq Require Import ZArith List Bool Arith Lia.
Import ListNotations.
From Verif Require Import Base PrimModel PrimSpec PrimProofs CodecModel CodecSpec CodecProofs CodecRead.
Open Scope Z_scope.

Definition at_ (s : st) (b : list Z) : st := mkSt (mkRd b (r_err (s_rd s))) (s_alloc s).
Definition Loc {A} (f : st -> out (A * st)) : Prop := forall s x s', f s = Ok (x, s') -> failed s' = false ->
  failed s = false /\ exists c, r_body (s_rd s) = c ++ r_body (s_rd s') /\ forall e, f (at_ s (c ++ e)) = Ok (x, at_ s' e).
Lemma loc_ret {A} (x : A) : Loc (fun s => Ok (x, s)).
Proof. intros s y s' E F. injection E as <- <-. split; [exact F|]. exists []. split; [reflexivity|]. reflexivity. Qed.
Lemma loc_bind {A B} (f : st -> out (A * st)) (g : A -> st -> out (B * st)) : Loc f -> (forall x, Loc (g x)) -> Loc (fun s => bind (f s) (fun '(x, s) => g x s)).
Proof.
  intros F G s y s' E N. destruct (f s) as [[x s1]| |] eqn:E1; cbn [bind] in E; try discriminate. destruct (G x s1 y s' E N) as (N1 & c2 & B2 & H2). destruct (F s x s1 E1 N1) as (N0 & c1 & B1 & H1).
  split; [exact N0|]. exists (c1 ++ c2). split; [now rewrite B1, B2, app_assoc|]. intro e. rewrite <- app_assoc, H1. cbn [bind]. apply H2.
Qed.
Lemma loc_if {A} (f : st -> out (A * st)) (x : A) : Loc f -> Loc (fun s => if failed s then Ok (x, s) else f s).
Proof.
  intros F s y s' E N. destruct (failed s) eqn:X; [injection E as <- <-; congruence|]. split; [reflexivity|]. destruct (F s y s' E N) as (_ & c & B & H). exists c. split; [exact B|]. intro e.
  change (failed (at_ s (c ++ e))) with (failed s). rewrite X. apply H.
Qed.
Lemma loc_fail {A} (f : st -> A) e : Loc (fun s => Ok (f s, fail s e)).
Proof. intros s y s' E N. injection E as <- <-. discriminate. Qed.
Lemma loc_panic {A} : Loc (fun s => @Panic (A * st)).
Proof. intros s y s' E. discriminate. Qed.
Lemma scan_local b : forall res x rest, var_scan b res = (x, inr rest) -> exists c, b = c ++ rest /\ forall e, var_scan (c ++ e) res = (x, inr e).
Proof.
  induction b as [|c b IH]; intros res x rest E; cbn [var_scan] in E; [discriminate|]. destruct (c <? 128) eqn:C.
  - injection E as <- <-. exists [c]. split; [reflexivity|]. intro e. cbn [app var_scan]. now rewrite C.
  - match type of E with (if ?b then _ else _) = _ => destruct b eqn:D; [discriminate|] end. destruct (IH _ _ _ E) as (c' & -> & H). exists (c :: c'). split; [reflexivity|]. intro e. cbn [app var_scan]. now rewrite C, D, H.
Qed.
Lemma bulk_dec_app k n : forall b e, (n * width k <= length b)%nat -> bulk_dec k n (b ++ e) = bulk_dec k n b.
Proof.
  induction n as [|n IH]; intros b e L; [reflexivity|]. cbn [bulk_dec]. cbn [Nat.mul] in L. rewrite firstn_app, skipn_app, (proj2 (Nat.sub_0_le _ _)) by lia. cbn [firstn skipn]. rewrite app_nil_r. f_equal.
  apply IH. rewrite skipn_length. lia.
Qed.
Lemma firstn_len_app {A} n (b e : list A) : (n <= length b)%nat -> firstn n (firstn n b ++ e) = firstn n b /\ skipn n (firstn n b ++ e) = e.
Proof.
  intro L. assert (Q : length (firstn n b) = n) by (apply firstn_length_le; exact L). rewrite firstn_app, skipn_app, Q, Nat.sub_diag. cbn [firstn skipn]. rewrite firstn_firstn, Nat.min_id, app_nil_r. split; [reflexivity|].
  rewrite skipn_all2; [reflexivity|lia].
Qed.
Lemma loc_call c : c <> RTail -> Loc (call c).
Proof.
  intros NT s v s' E N. unfold call, r_call in E. destruct (r_err (s_rd s)) as [e0|] eqn:X; [injection E as <- <-; unfold failed in N; cbn in N; rewrite X in N; discriminate|].
  split; [unfold failed; now rewrite X|]. unfold call, r_call, at_. cbn [s_rd r_err r_body s_alloc]. rewrite X. cbv zeta in *. destruct c as [k| |k dst|sz|sz|].
  - destruct (Nat.ltb_spec (length (r_body (s_rd s))) (width k)); [injection E as <- <-; discriminate|]. injection E as <- <-. exists (firstn (width k) (r_body (s_rd s))). split; [symmetry; apply firstn_skipn|].
    intro e. destruct (firstn_len_app (width k) (r_body (s_rd s)) e) as [Q1 Q2]; [lia|]. rewrite app_length, firstn_length_le by lia. destruct (Nat.ltb_spec (width k + length e) (width k)); [lia|]. rewrite Q1, Q2. reflexivity.
  - destruct (var_scan (r_body (s_rd s)) 0) as [x [e|rest]] eqn:V; [injection E as <- <-; discriminate|]. injection E as <- <-. destruct (scan_local _ _ _ _ V) as (c & B & H). exists c. split; [exact B|]. intro e. now rewrite H.
  - destruct (Nat.ltb_spec (length (r_body (s_rd s))) (length dst * width k)) as [L|L]; [injection E as <- <-; discriminate|]. injection E as <- <-. exists (firstn (length dst * width k) (r_body (s_rd s))). split; [symmetry; apply firstn_skipn|].
    intro e. destruct (firstn_len_app (length dst * width k) (r_body (s_rd s)) e) as [Q1 Q2]; [lia|]. rewrite app_length, firstn_length_le by lia. destruct (Nat.ltb_spec (length dst * width k + length e) (length dst * width k)); [lia|]. rewrite Q2.
    rewrite bulk_dec_app by (rewrite firstn_length_le; lia). rewrite <- (firstn_skipn (length dst * width k) (r_body (s_rd s))) at 2. rewrite bulk_dec_app by (rewrite firstn_length_le; lia). reflexivity.
  - destruct (Z.ltb_spec (Z.of_nat (length (r_body (s_rd s)))) sz) as [L|L]; [injection E as <- <-; discriminate|]. destruct (Z.ltb_spec sz 0); [discriminate|]. injection E as <- <-. exists (firstn (Z.to_nat sz) (r_body (s_rd s))). split; [symmetry; apply firstn_skipn|].
    intro e. destruct (firstn_len_app (Z.to_nat sz) (r_body (s_rd s)) e) as [Q1 Q2]; [lia|]. rewrite app_length, firstn_length_le by lia. destruct (Z.ltb_spec (Z.of_nat (Z.to_nat sz + length e)) sz); [lia|]. destruct (Z.ltb_spec sz 0); [lia|]. rewrite Q1, Q2. reflexivity.
  - destruct (Z.ltb_spec (Z.of_nat (length (r_body (s_rd s)))) sz) as [L|L]; [injection E as <- <-; discriminate|]. destruct (Z.ltb_spec sz 0); [discriminate|]. injection E as <- <-. exists (firstn (Z.to_nat sz) (r_body (s_rd s))). split; [symmetry; apply firstn_skipn|].
    intro e. destruct (firstn_len_app (Z.to_nat sz) (r_body (s_rd s)) e) as [Q1 Q2]; [lia|]. rewrite app_length, firstn_length_le by lia. destruct (Z.ltb_spec (Z.of_nat (Z.to_nat sz + length e)) sz); [lia|]. destruct (Z.ltb_spec sz 0); [lia|]. rewrite Q1, Q2. reflexivity.
  - congruence.
Qed.
Lemma loc_call1 {A} c (g : rval -> A) : c <> RTail -> Loc (fun s => do! (v, s) <- call c s; Ok (g v, s)).
Proof. intro N. apply loc_bind; [now apply loc_call|]. intro x. apply loc_ret. Qed.
Lemma loc_prefix p : Loc (rprefix p).
Proof. destruct p; apply loc_call1; discriminate. Qed.
Lemma loc_take n : Loc (take n).
Proof. apply loc_call1. discriminate. Qed.
Lemma loc_dec_take p old : Loc (dec_take p old).
Proof. apply (loc_if (fun s => do! (n, s) <- rprefix p s; take n s)). apply loc_bind; [apply loc_prefix|]. apply loc_take. Qed.
(** what does not look at the input *)
Lemma loc_rd {A} (f : st -> out (A * st)) : (forall s x s', f s = Ok (x, s') -> s_rd s' = s_rd s /\ forall b, f (at_ s b) = Ok (x, at_ s' b)) -> Loc f.
Proof.
  intros H s x s' E N. destruct (H _ _ _ E) as [R H']. split; [unfold failed in *; now rewrite <- R|]. exists []. split; [now rewrite R|]. intro e. apply H'.
Qed.
Lemma make_rd t n s x s' : make_slice t n s = Ok (x, s') -> s_rd s' = s_rd s /\ forall b, make_slice t n (at_ s b) = Ok (x, at_ s' b).
Proof. unfold make_slice. destruct (n <? 0); [discriminate|]. intro E. injection E as <- <-. now split. Qed.
Lemma cnt_set_rd t old n s x s' : cnt_set t old n s = Ok (x, s') -> s_rd s' = s_rd s /\ forall b, cnt_set t old n (at_ s b) = Ok (x, at_ s' b).
Proof. unfold cnt_set. destruct (_ =? _); [|apply make_rd]. intro E. injection E as <- <-. now split. Qed.
Lemma set_size_rd t : forall old sz s x s', set_size t old sz s = Ok (x, s') -> s_rd s' = s_rd s /\ forall b, set_size t old sz (at_ s b) = Ok (x, at_ s' b).
Proof.
  induction t as [k|k| |n t IH|t IH|t IH|fs]; intros old sz s x s' E; cbn [set_size] in *.
  1, 2, 3, 4, 7: destruct (0 <=? _); injection E as <- <-; now split.
  - destruct (0 <=? sz0 true (TSl t)); [injection E as <- <-; now split|]. destruct (0 <? _); [|injection E as <- <-; now split].
    destruct (cnt_set t old _ s) as [[l s1]| |] eqn:E1; cbn [bind] in E; try discriminate. injection E as <- <-. destruct (cnt_set_rd _ _ _ _ _ _ E1) as [R H]. split; [exact R|]. intro b. now rewrite H.
  - assert (G : forall o : val t, bind (set_size t o sz s) (fun '(x, y, s) => Ok (Some x, y, s)) = Ok (x, s') -> s_rd s' = s_rd s /\ forall b, bind (set_size t o sz (at_ s b)) (fun '(x, y, s) => Ok (Some x, y, s)) = Ok (x, at_ s' b)).
    { intros o E'. destruct (set_size t o sz s) as [[[y w] s1]| |] eqn:E1; cbn [bind] in E'; try discriminate. injection E' as <- <-. destruct (IH _ _ _ _ _ E1) as [R H]. split; [exact R|]. intro b. now rewrite H. }
    destruct t; try discriminate; (destruct (sz =? 0); [injection E as <- <-; now split|apply G; exact E]).
Qed.
Lemma set_count_rd t : forall old n s x s', set_count t old n s = Ok (x, s') -> s_rd s' = s_rd s /\ forall b, set_count t old n (at_ s b) = Ok (x, at_ s' b).
Proof.
  induction t as [k|k| |m t IH|t IH|t IH|fs]; intros old n s x s' E; cbn [set_count] in *; try discriminate.
  1, 2, 3, 6: injection E as <- <-; now split.
  - destruct (cnt_set t old _ s) as [[l s1]| |] eqn:E1; cbn [bind] in E; try discriminate. injection E as <- <-. destruct (cnt_set_rd _ _ _ _ _ _ E1) as [R H]. split; [exact R|]. intro b. now rewrite H.
  - assert (G : forall o : val t, bind (set_count t o n s) (fun '(x, y, s) => Ok (Some x, y, s)) = Ok (x, s') -> s_rd s' = s_rd s /\ forall b, bind (set_count t o n (at_ s b)) (fun '(x, y, s) => Ok (Some x, y, s)) = Ok (x, at_ s' b)).
    { intros o E'. destruct (set_count t o n s) as [[[y w] s1]| |] eqn:E1; cbn [bind] in E'; try discriminate. injection E' as <- <-. destruct (IH _ _ _ _ _ E1) as [R H]. split; [exact R|]. intro b. now rewrite H. }
    destruct t; try discriminate; (destruct (n =? 0); [injection E as <- <-; now split|apply G; exact E]).
Qed.
Lemma loc_bulk k old : Loc (bulk k old).
Proof. unfold bulk. destruct old; [apply loc_ret|]. apply loc_call1. discriminate. Qed.
Lemma loc_list {A} (f : A -> st -> out (A * st)) l : (forall x, Loc (f x)) -> Loc (dec_list f l).
Proof.
  intro F. induction l as [|x l IH]; cbn [dec_list]; [apply loc_ret|].
  apply (loc_bind (f x) (fun y s => do! (l, s) <- dec_list f l s; Ok (y :: l, s))); [apply F|]. intro y. apply loc_bind; [exact IH|]. intro z. apply loc_ret.
Qed.
Lemma loc_count t fixed p old : (forall x, Loc (fixed x)) -> Loc (@dec_with_count t fixed p old).
Proof.
  intro F. unfold dec_with_count. apply (loc_if (fun s => do! (cnt, s) <- rprefix p s; do! (x, ok, s) <- set_count t old cnt s; if (ok : bool) then fixed x s else Ok (x, fail s (ECodec 1)))).
  apply (loc_bind (rprefix p)); [apply loc_prefix|]. intro n. apply (loc_bind (set_count t old n) (fun (xo : val t * bool) s => let '(x, ok) := xo in if (ok : bool) then fixed x s else Ok (x, fail s (ECodec 1)))).
  - apply loc_rd. apply set_count_rd.
  - intros [x []]; [apply F|]. apply (loc_fail (fun _ => x)).
Qed.
Lemma loc_size t fixed tail p old : (forall x, Loc (fixed x)) -> Loc (@dec_with_size t fixed tail p old).
Proof.
  intro F. unfold dec_with_size. match goal with |- Loc (fun s => if failed s then Ok (old, s) else @?f s) => apply (loc_if f) end.
  match goal with |- Loc (fun s => bind (rprefix p s) (fun '(n, s) => @?g n s)) => apply (loc_bind (rprefix p) g) end; [apply loc_prefix|]. intro n. cbv beta.
  match goal with |- Loc (fun s => bind (set_size t old n s) ?g) => apply (loc_bind (set_size t old n) (fun xy s => g (xy, s))) end.
  1: { apply loc_rd. apply set_size_rd. }
  intros [x []]; [apply F| |apply (loc_fail (fun _ => x))]. cbv iota beta.
  match goal with |- Loc (fun s => bind (take n s) ?g) => apply (loc_bind (take n) (fun xy s => g (xy, s))) end; [apply loc_take|]. intros b s z s' E N. cbv iota beta in *.
  destruct (tail x (mkSt (mkRd b (r_err (s_rd s))) (s_alloc s))) as [[y rr]| |] eqn:T; cbn [bind] in E; try discriminate. cbv zeta in E. destruct (r_err (s_rd rr)) as [e0|] eqn:X; [injection E as <- <-; discriminate|]. destruct (_ =? 0) eqn:Q; [|injection E as <- <-; discriminate].
  injection E as <- <-. split; [exact N|]. exists []. split; [reflexivity|]. intro e. cbn [app at_ s_rd r_err s_alloc] in *. unfold at_ in *. cbn [s_rd r_err s_alloc] in *. rewrite T. cbn [bind]. cbv zeta. rewrite X, Q. reflexivity.
Qed.
Definition LocT (t : ty) : Prop := forall m, m <> Tail -> forall old, Loc (dec m t old).
Definition LocF (fs : flds) : Prop := forall olds, Loc (dec_flds Fixed fs olds).
Lemma loc_auto_take t p : match dec_auto_take t p with Some f => forall old, Loc (f old) | None => True end.
Proof. destruct t as [k|k| |n t|t|t|fs]; try exact Logic.I; [intro old; apply loc_dec_take|]. cbn [dec_auto_take]. destruct t as [[]| | | | | |]; try exact Logic.I. intro old. apply loc_dec_take. Qed.
Lemma loc_sl_fixed t : LocT t -> forall old, Loc (dec Fixed (TSl t) old).
Proof. intros IH old. destruct t; cbn [dec]; try apply loc_bulk; (apply loc_list; intro x; exact (IH Auto ltac:(discriminate) x)). Qed.
Lemma dec_local : (forall t, LocT t) /\ (forall fs, LocF fs).
Proof.
  apply ty_flds_ind.
  - intros k m _ old. apply loc_call1. discriminate.
  - intros k m _ old. apply (loc_call1 RVar (fun v => num v mod 256 ^ Z.of_nat (width k))). discriminate.
  - intros m N old. destruct m; try congruence; apply loc_dec_take.
  - intros n t IH m _ old. destruct t; cbn [dec]; try apply loc_bulk; (apply loc_list; intro x; exact (IH Auto ltac:(discriminate) x)).
  - intros t IH m N old. destruct m; [now apply loc_sl_fixed| |congruence].
    assert (G : Loc (@dec_with_count (TSl t) (dec Fixed (TSl t)) P32 old)) by (apply loc_count; now apply loc_sl_fixed).
    destruct t as [[]| | | | | |]; try exact G. apply loc_dec_take.
  - intros t IH m N old. destruct m; try congruence; (destruct old as [v|]; [|apply loc_ret]); (apply (loc_bind (dec Fixed t v) (fun x s => Ok (Some x, s))); [exact (IH Fixed ltac:(discriminate) v)|]; intro x; apply loc_ret).
  - intros fs IH m N old. cbn [dec]. destruct m; try congruence; apply IH.
  - intros olds. apply loc_ret.
  - intros tg t IH fs IHf [old olds]. cbn [dec_flds].
    match goal with |- Loc (fun s => bind (@?f s) (fun '(n, s) => @?g n s)) => apply (loc_bind f g) end.
    + destruct (drop true tg t); [apply loc_ret|]. pose proof (fun p => loc_auto_take t p) as AT. destruct tg as [| |p|p|]; try exact (IH Auto ltac:(discriminate) old); try exact (IH Fixed ltac:(discriminate) old).
      * specialize (AT p). destruct (dec_auto_take t p) as [f|]; [apply AT|]. apply loc_size. exact (IH Fixed ltac:(discriminate)).
      * specialize (AT p). destruct (dec_auto_take t p) as [f|]; [apply AT|]. apply loc_count. exact (IH Fixed ltac:(discriminate)).
    + intro x. apply loc_bind; [apply IHf|]. intro y. apply loc_ret.
Qed.
Lemma Read_local t old : Loc (Read t old).
Proof.
  assert (G : Loc (fun s => if failed s then Ok (old, s) else match Sz true t with None => Panic | Some _ => dec Auto t old s end)).
  { apply (loc_if (fun s => match Sz true t with None => Panic | Some _ => dec Auto t old s end)). destruct (Sz true t); [|apply loc_panic]. exact (proj1 dec_local t Auto ltac:(discriminate) old). }
  assert (U : forall A (o : A) (g : Z -> st -> out (A * st)), (forall n, Loc (g n)) -> Loc (fun s => if failed s then Ok (o, s) else do! (c, s) <- call (RFixed U32) s; if failed s then Ok (o, s) else g (num c) s)).
  { intros A o g H. apply (loc_if (fun s => do! (c, s) <- call (RFixed U32) s; if failed s then Ok (o, s) else g (num c) s)). apply (loc_bind (call (RFixed U32)) (fun c s => if failed s then Ok (o, s) else g (num c) s)); [apply loc_call; discriminate|]. intro c. apply loc_if. apply H. }
  destruct t as [k|k| |n t|t|t|fs]; try exact G; cbn [Read].
  - apply U. apply loc_take.
  - assert (B : forall k (o : list Z), Loc (fun s => if failed s then Ok (o, s) else do! (c, s) <- call (RFixed U32) s; if failed s then Ok (o, s) else do! (l, s) <- make_slice (TNum k) (num c) s; do! (v, s) <- call (RBulk k l) s; Ok (nums v, s))).
    { intros k o. apply (U _ o (fun n s => do! (l, s) <- make_slice (TNum k) n s; do! (v, s) <- call (RBulk k l) s; Ok (nums v, s))). intro n. apply (loc_bind (make_slice (TNum k) n)); [apply loc_rd; apply make_rd|]. intro l. apply loc_call1. discriminate. }
    destruct t as [[]| | | | | |]; try exact G; try apply B. apply U. apply loc_take.
Qed.
