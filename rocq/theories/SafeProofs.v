(** Decoding arbitrary bytes. *)
From Coq Require Import ZArith List Bool Arith Lia.
Import ListNotations.
From Verif Require Import Base PrimModel PrimSpec PrimProofs PrimProps CodecModel CodecSpec CodecProofs CodecRead SafeSpec.
Open Scope Z_scope.

Definition body (s : st) : list Z := r_body (s_rd s).
Definition wb (s : st) : Prop := bytes_ok (body s).
(** nothing is added to the input, and errors stay *)
Record mono (s s' : st) : Prop := mkMono {
  oWb : wb s';
  oErr : failed s = true -> failed s' = true;
  oLen : (length (body s') <= length (body s))%nat }.
(** something is read, or there is an error *)
Definition less (s s' : st) : Prop := failed s' = true \/ (length (body s') < length (body s))%nat.
Definition Runs {A} (s : st) (o : out (A * st)) : Prop := exists x s', o = Ok (x, s') /\ mono s s'.
Definition Eats {A} (s : st) (o : out (A * st)) : Prop := exists x s', o = Ok (x, s') /\ mono s s' /\ less s s'.
Lemma mono_refl s : wb s -> mono s s.
Proof. intro W. split; trivial. Qed.
Lemma mono_trans s1 s2 s3 : mono s1 s2 -> mono s2 s3 -> mono s1 s3.
Proof. intros [_ A1 A2] [B0 B1 B2]. split; [exact B0|tauto|lia]. Qed.
Lemma less_l s1 s2 s3 : less s1 s2 -> mono s2 s3 -> less s1 s3.
Proof. intros [A|A] [_ B1 B2]; [left; now apply B1|right; lia]. Qed.
Lemma less_r s1 s2 s3 : mono s1 s2 -> less s2 s3 -> less s1 s3.
Proof. intros [_ A1 A2] [B|B]; [now left|right; lia]. Qed.
Lemma eats_runs {A} s (o : out (A * st)) : Eats s o -> Runs s o.
Proof. intros (x & s' & E & M & _). now exists x, s'. Qed.
Lemma runs_ok {A} s (x : A) : wb s -> Runs s (Ok (x, s)).
Proof. intro W. exists x, s. split; [reflexivity|now apply mono_refl]. Qed.
Lemma runs_bind {A B} s (o : out (A * st)) (f : A -> st -> out (B * st)) : Runs s o -> (forall x s', o = Ok (x, s') -> mono s s' -> Runs s' (f x s')) -> Runs s (bind o (fun '(x, s) => f x s)).
Proof. intros (x & s1 & -> & M) F. destruct (F x s1 eq_refl M) as (y & s2 & E & M2). exists y, s2. split; [exact E|now apply (mono_trans _ s1)]. Qed.
Lemma eats_bind {A B} s (o : out (A * st)) (f : A -> st -> out (B * st)) : Eats s o -> (forall x s', o = Ok (x, s') -> mono s s' -> Runs s' (f x s')) -> Eats s (bind o (fun '(x, s) => f x s)).
Proof. intros (x & s1 & -> & M & L) F. destruct (F x s1 eq_refl M) as (y & s2 & E & M2). exists y, s2. split; [exact E|]. split; [now apply (mono_trans _ s1)|now apply (less_l _ s1)]. Qed.
Lemma bind_eats {A B} s (o : out (A * st)) (f : A -> st -> out (B * st)) : Runs s o -> (forall x s', o = Ok (x, s') -> mono s s' -> Eats s' (f x s')) -> Eats s (bind o (fun '(x, s) => f x s)).
Proof. intros (x & s1 & -> & M) F. destruct (F x s1 eq_refl M) as (y & s2 & E & M2 & L). exists y, s2. split; [exact E|]. split; [now apply (mono_trans _ s1)|now apply (less_r _ s1)]. Qed.

(** ** Primitive reads *)
Lemma skipn_ok n b : bytes_ok b -> bytes_ok (skipn n b).
Proof. unfold bytes_ok. rewrite !Forall_forall. intros H x X. apply H. rewrite <- (firstn_skipn n b). apply in_or_app. now right. Qed.
Lemma firstn_ok n b : bytes_ok b -> bytes_ok (firstn n b).
Proof. unfold bytes_ok. rewrite !Forall_forall. intros H x X. apply H. rewrite <- (firstn_skipn n b). apply in_or_app. now left. Qed.
Lemma scan_rest b : forall res x rest, bytes_ok b -> var_scan b res = (x, inr rest) -> bytes_ok rest /\ (length rest < length b)%nat.
Proof.
  induction b as [|c b IH]; intros res x rest W E; cbn [var_scan] in E; [discriminate|]. inversion W. subst. destruct (c <? 128); [injection E as <- <-; split; [assumption|cbn; lia]|].
  destruct (_ <? _); [discriminate|]. destruct (IH _ _ _ H2 E). split; [assumption|cbn; lia].
Qed.
Definition sized (c : rcall) : Prop := match c with RSlice z | RString z => 0 <= z | _ => True end.
Lemma call_runs c s : wb s -> sized c -> Runs s (call c s).
Proof.
  intros W Z. unfold Runs, call, r_call. destruct (r_err (s_rd s)) as [e|] eqn:E.
  { eexists _, _. split; [reflexivity|]. split; trivial. }
  assert (F : failed s = false) by (unfold failed; now rewrite E).
  assert (G : forall s', wb s' -> (length (body s') <= length (body s))%nat -> mono s s') by (intros s' A B; split; [exact A|congruence|exact B]).
  unfold wb, body in *. destruct c as [k| |k dst|sz|sz|]; cbv zeta.
  - destruct (_ <? _)%nat; eexists _, _; (split; [reflexivity|]); apply G; cbn; trivial; [now apply skipn_ok|rewrite skipn_length; lia].
  - destruct (var_scan (r_body (s_rd s)) 0) as [x [e|rest]] eqn:V; eexists _, _; (split; [reflexivity|]); apply G; cbn; trivial; apply scan_rest in V; trivial; [tauto|lia].
  - destruct (_ <? _)%nat; eexists _, _; (split; [reflexivity|]); apply G; cbn; trivial; [now apply skipn_ok|rewrite skipn_length; lia].
  - destruct (_ <? _); [|destruct (Z.ltb_spec sz 0); [cbn in Z; lia|]]; eexists _, _; (split; [reflexivity|]); apply G; cbn; trivial; [now apply skipn_ok|rewrite skipn_length; lia].
  - destruct (_ <? _); [|destruct (Z.ltb_spec sz 0); [cbn in Z; lia|]]; eexists _, _; (split; [reflexivity|]); apply G; cbn; trivial; [now apply skipn_ok|rewrite skipn_length; lia].
  - eexists _, _. split; [reflexivity|]. apply G; cbn; [constructor|lia].
Qed.
Lemma call_less c s v s' : wb s -> match c with RFixed _ | RVar => True | _ => False end -> call c s = Ok (v, s') -> less s s'.
Proof.
  intros W C E. unfold call, r_call in E. destruct (r_err (s_rd s)) as [e|] eqn:X.
  { injection E as <- <-. left. unfold failed. cbn. now rewrite X. }
  destruct c as [k| |k dst|sz|sz|]; try destruct C; cbv zeta in E.
  - destruct (Nat.ltb_spec (length (r_body (s_rd s))) (width k)); injection E as <- <-; [now left|]. right. unfold body. cbn. rewrite skipn_length. pose proof (width_pos k). lia.
  - destruct (var_scan (r_body (s_rd s)) 0) as [x [e|rest]] eqn:V; injection E as <- <-; [now left|]. right. now apply scan_rest in V.
Qed.
Lemma call_eats c s : wb s -> match c with RFixed _ | RVar => True | _ => False end -> Eats s (call c s).
Proof.
  intros W C. assert (Z : sized c) by (destruct c; cbn; tauto). destruct (call_runs c s W Z) as (v & s' & E & M). exists v, s'. split; [exact E|]. split; [exact M|]. now apply (call_less c s v).
Qed.
Lemma le_dec_nn b : bytes_ok b -> 0 <= le_dec b.
Proof. intro H. apply le_dec_range in H. lia. Qed.
Lemma num_nn k s v s' : match k with U8 | U16 | U32 => True | _ => False end -> wb s -> call (RFixed k) s = Ok (v, s') -> 0 <= num v.
Proof.
  intros K W E. unfold call, r_call in E. destruct (r_err (s_rd s)); [injection E as <- <-; cbn; lia|]. cbv zeta in E. destruct (_ <? _)%nat; injection E as <- <-; [cbn; lia|].
  pose proof (le_dec_nn (firstn (width k) (r_body (s_rd s))) (firstn_ok _ _ W)). destruct k; try destruct K; cbn [num of_bits signed andb]; assumption.
Qed.
Lemma rprefix_runs p s : wb s -> exists n s', rprefix p s = Ok (n, s') /\ mono s s' /\ less s s' /\ (negative p = false -> 0 <= n).
Proof.
  intro W. destruct p; cbn [rprefix negative].
  1: destruct (call_eats RVar s W Logic.I) as (v & s' & E & M & L). 2: destruct (call_eats (RFixed U8) s W Logic.I) as (v & s' & E & M & L). 3: destruct (call_eats (RFixed U16) s W Logic.I) as (v & s' & E & M & L).
  4: destruct (call_eats (RFixed U32) s W Logic.I) as (v & s' & E & M & L). 5: destruct (call_eats (RFixed U64) s W Logic.I) as (v & s' & E & M & L).
  all: rewrite E; cbn [bind]; eexists _, _; (split; [reflexivity|]); (split; [exact M|]); (split; [exact L|]); intro N; first [discriminate N|eapply num_nn; [|exact W|exact E]; exact Logic.I].
Qed.
Lemma take_runs n s : 0 <= n -> wb s -> exists b s', take n s = Ok (b, s') /\ mono s s' /\ bytes_ok b.
Proof.
  intros N W. unfold take. destruct (call_runs (RSlice n) s W N) as (v & s' & E & M). rewrite E. cbn [bind]. eexists _, _. split; [reflexivity|]. split; [exact M|].
  unfold call, r_call in E. destruct (r_err (s_rd s)); [injection E as <- <-; constructor|]. cbv zeta in E. destruct (_ <? n); [injection E as <- <-; constructor|]. destruct (n <? 0); [discriminate|]. injection E as <- <-. now apply firstn_ok.
Qed.
Lemma dec_take_runs p old s : negative p = false -> wb s -> Eats s (dec_take p old s).
Proof.
  intros N W. unfold dec_take. destruct (failed s) eqn:F; [exists old, s; split; [reflexivity|]; split; [now apply mono_refl|now left]|].
  destruct (rprefix_runs p s W) as (n & s1 & E & M & L & P). rewrite E. cbn [bind]. destruct (take_runs n s1 (P N) (oWb _ _ M)) as (b & s2 & E2 & M2 & _).
  exists b, s2. split; [exact E2|]. split; [now apply (mono_trans _ s1)|now apply (less_l _ s1)].
Qed.
Lemma make_runs t n s : 0 <= n -> wb s -> Runs s (make_slice t n s).
Proof.
  intros N W. unfold make_slice. destruct (Z.ltb_spec n 0); [lia|]. eexists _, _. split; [reflexivity|]. now split.
Qed.
Lemma cnt_set_runs t old n s : 0 <= n -> wb s -> Runs s (cnt_set t old n s).
Proof. intros N W. unfold cnt_set. destruct (_ =? _); [now apply runs_ok|now apply make_runs]. Qed.
Lemma bulk_runs k old s : wb s -> Runs s (bulk k old s).
Proof. intro W. unfold bulk. destruct old; [now apply runs_ok|]. apply runs_bind; [now apply call_runs|]. intros v s' _ M. apply runs_ok, M. Qed.
Lemma dec_list_runs {A} (f : A -> st -> out (A * st)) l : (forall x s, wb s -> Runs s (f x s)) -> forall s, wb s -> Runs s (dec_list f l s).
Proof.
  intro F. induction l as [|x l IH]; intros s W; cbn [dec_list]; [now apply runs_ok|]. apply runs_bind; [now apply F|]. intros y s1 _ M.
  apply runs_bind; [apply IH, M|]. intros z s2 _ M2. apply runs_ok, M2.
Qed.
Lemma tail_loop_runs {A} (z : A) f : (forall x s, wb s -> Eats s (f x s)) -> forall fuel old s, wb s -> (length (body s) < fuel)%nat -> Runs s (tail_loop z f fuel old s).
Proof.
  intro F. induction fuel as [|fuel IH]; intros old s W L; [lia|]. cbn [tail_loop]. destruct ((0 <? zlen (r_body (s_rd s))) && negb (failed s)) eqn:C; [|now apply runs_ok].
  destruct (F (hd z old) s W) as (y & s1 & E & M & LS). rewrite E. cbn [bind]. apply andb_true_iff in C. destruct C as [_ C].
  assert (R : Runs s1 (tail_loop z f fuel (tl old) s1)).
  { destruct LS as [LS|LS].
    - destruct fuel; cbn [tail_loop]; rewrite LS, andb_false_r; apply runs_ok, M.
    - apply IH; [apply M|lia]. }
  destruct R as (l & s2 & E2 & M2). rewrite E2. cbn [bind]. eexists _, _. split; [reflexivity|]. now apply (mono_trans _ s1).
Qed.

(** ** Prefixes *)
Lemma cnt_set_rd t old n s : 0 <= n -> exists l s', cnt_set t old n s = Ok (l, s') /\ s_rd s' = s_rd s.
Proof. intro N. unfold cnt_set, make_slice. destruct (zlen old =? n); [now eexists _, _|]. destruct (Z.ltb_spec n 0); [lia|]. now eexists _, _. Qed.
Lemma set_size_runs p t : size_safe p t = true -> forall old sz s, (negative p = false -> 0 <= sz) -> wb s ->
  exists x y s', set_size t old sz s = Ok (x, y, s') /\ s_rd s' = s_rd s /\ (y = SzNo -> size_tail t = true /\ negative p = false).
Proof.
  induction t as [k|k| |n t IH|t IH|t IH|fs]; intros C old sz s N W.
  5: { cbn [size_safe set_size size_tail] in *. destruct (Z.leb_spec 0 (sz0 true (TSl t))).
       - eexists _, _, _. split; [reflexivity|]. split; [reflexivity|]. now destruct (sz =? _).
       - cbn [orb] in C. apply negb_true_iff in C. destruct (Z.ltb_spec 0 (sz0 true t)).
         + assert (Q : 0 <= Z.quot sz (sz0 true t)) by (apply Z.quot_pos; [now apply N|lia]). destruct (cnt_set_rd t old _ s Q) as (l & s' & E & R). rewrite E. cbn [bind]. eexists _, _, _. split; [reflexivity|]. split; [exact R|]. discriminate.
         + eexists _, _, _. split; [reflexivity|]. split; [reflexivity|]. intros _. split; [|exact C]. destruct (Z.ltb_spec (sz0 true (TSl t)) 0); [|lia]. destruct (Z.leb_spec (sz0 true t) 0); [reflexivity|lia]. }
  5: { cbn [size_safe set_size size_tail] in *. assert (G : forall o : val t, size_safe p t = true -> exists x y s', bind (set_size t o sz s) (fun '(x, y, s) => Ok (Some x, y, s)) = Ok (x, y, s') /\ s_rd s' = s_rd s /\ (y = SzNo -> size_tail t = true /\ negative p = false)).
       { intros o C'. destruct (IH C' o sz s N W) as (x & y & s' & E & S & Y). rewrite E. cbn [bind]. now exists (Some x), y, s'. }
       destruct t; try discriminate; (destruct (sz =? 0); [eexists _, _, _; (split; [reflexivity|]); (split; [reflexivity|]); discriminate|apply G; exact C]). }
  all: cbn [set_size size_safe size_tail] in *; match type of C with (0 <=? ?z) || _ = true => destruct (Z.leb_spec 0 z) end;
    [eexists _, _, _; split; [reflexivity|]; split; [reflexivity|]; now destruct (sz =? _)
    |cbn [orb] in C; apply negb_true_iff in C; eexists _, _, _; split; [reflexivity|]; split; [reflexivity|]; intros _; split; [|exact C]; match goal with |- (?z <? 0) = true => destruct (Z.ltb_spec z 0); [reflexivity|lia] end].
Qed.
Lemma set_count_runs p t : cnt_safe p t = true -> forall old n s, (negative p = false -> 0 <= n) -> wb s -> exists x y s', set_count t old n s = Ok (x, y, s') /\ s_rd s' = s_rd s.
Proof.
  induction t as [k|k| |m t IH|t IH|t IH|fs]; intros C old n s N W; cbn [set_count cnt_safe] in *; try discriminate.
  1, 2, 3, 6: eexists _, _, _; split; reflexivity.
  - apply negb_true_iff in C. specialize (N C). destruct (cnt_set_rd t old n s N) as (l & s' & E & R). rewrite E. cbn [bind]. eexists _, _, _. split; [reflexivity|exact R].
  - assert (G : forall o : val t, cnt_safe p t = true -> exists x y s', bind (set_count t o n s) (fun '(x, y, s) => Ok (Some x, y, s)) = Ok (x, y, s') /\ s_rd s' = s_rd s).
    { intros o C'. destruct (IH C' o n s N W) as (x & y & s' & E & S). rewrite E. cbn [bind]. now exists (Some x), y, s'. }
    destruct t; try discriminate; (destruct (n =? 0); [eexists _, _, _; split; reflexivity|apply G; exact C]).
Qed.
Lemma mono_rd s s1 s2 : s_rd s1 = s_rd s2 -> mono s s1 -> mono s s2.
Proof. intros E [A B C]. unfold wb, body, failed in *. rewrite E in *. now split. Qed.
Lemma less_rd s s1 s2 : s_rd s1 = s_rd s2 -> less s s1 -> less s s2.
Proof. unfold less, failed, body. now intros ->. Qed.
Lemma count_runs t fixed p old s : cnt_safe p t = true -> (forall x s, wb s -> Runs s (fixed x s)) -> wb s -> Eats s (@dec_with_count t fixed p old s).
Proof.
  intros C F W. unfold dec_with_count. destruct (failed s) eqn:X; [exists old, s; split; [reflexivity|]; split; [now apply mono_refl|now left]|].
  destruct (rprefix_runs p s W) as (n & s1 & E & M & L & P). rewrite E. cbn [bind]. destruct (set_count_runs p t C old n s1 P (oWb _ _ M)) as (x & y & s2 & E2 & S). rewrite E2. cbn [bind].
  symmetry in S. apply (mono_rd _ _ _ S) in M. apply (less_rd _ _ _ S) in L. destruct y.
  - destruct (F x s2 (oWb _ _ M)) as (z & s3 & E3 & M3). exists z, s3. split; [exact E3|]. split; [now apply (mono_trans _ s2)|now apply (less_l _ s2)].
  - eexists _, _. split; [reflexivity|]. split; [|now left]. destruct M as [A B D]. now split.
Qed.
Lemma size_runs t fixed tail p old s : size_safe p t = true -> (forall x s, wb s -> Runs s (fixed x s)) -> (size_tail t = true -> forall x s, wb s -> Runs s (tail x s)) -> wb s -> Eats s (@dec_with_size t fixed tail p old s).
Proof.
  intros C F T W. unfold dec_with_size. destruct (failed s) eqn:X; [exists old, s; split; [reflexivity|]; split; [now apply mono_refl|now left]|].
  destruct (rprefix_runs p s W) as (n & s1 & E & M & L & P). rewrite E. cbn [bind]. destruct (set_size_runs p t C old n s1 P (oWb _ _ M)) as (x & y & s2 & E2 & S & Y). rewrite E2. cbn [bind].
  symmetry in S. apply (mono_rd _ _ _ S) in M. apply (less_rd _ _ _ S) in L. destruct y.
  - destruct (F x s2 (oWb _ _ M)) as (z & s3 & E3 & M3). exists z, s3. split; [exact E3|]. split; [now apply (mono_trans _ s2)|now apply (less_l _ s2)].
  - destruct (Y eq_refl) as [Y1 Y2]. destruct (take_runs n s2 (P Y2) (oWb _ _ M)) as (b & s3 & E3 & M3 & B). rewrite E3. cbn [bind].
    destruct (T Y1 x (mkSt (mkRd b (r_err (s_rd s3))) (s_alloc s3)) B) as (z & s4 & E4 & M4). rewrite E4. cbn [bind].
    pose proof (mono_trans _ _ _ M M3) as MM. pose proof (less_l _ _ _ L M3) as LL. destruct MM as [A1 A2 A3].
    destruct (r_err (s_rd s4)) eqn:X4; [|destruct (_ =? 0)]; eexists _, _; (split; [reflexivity|]).
    + split; [now split|now left].
    + split; [now split|exact LL].
    + split; [now split|now left].
  - eexists _, _. split; [reflexivity|]. split; [|now left]. destruct M as [A B D]. now split.
Qed.

(** ** Values *)
Lemma auto_take t p : match dec_auto_take t p with Some f => is_bytes t = true /\ (negative p = false -> forall old s, wb s -> Eats s (f old s)) | None => is_bytes t = false end.
Proof.
  destruct t as [k|k| |n t|t|t|fs]; try reflexivity; cbn [dec_auto_take].
  - split; [reflexivity|]. intros N old s W. now apply dec_take_runs.
  - destruct t as [[]| | | | | |]; try reflexivity. split; [reflexivity|]. intros N old s W. now apply dec_take_runs.
Qed.
Definition SafeT (t : ty) : Prop := forall m, safe m t = true -> forall old s, wb s -> Runs s (dec m t old s) /\ (m = Auto -> eats t = true -> Eats s (dec m t old s)).
Definition SafeF (fs : flds) : Prop := forall m, safe_flds m fs = true -> forall old s, wb s -> Runs s (dec_flds m fs old s) /\ (eats_flds fs = true -> Eats s (dec_flds m fs old s)).
Lemma both {A} s (o : out (A * st)) (P : Prop) : Eats s o -> Runs s o /\ (P -> Eats s o).
Proof. intro H. split; [now apply eats_runs|trivial]. Qed.
Lemma both2 {A} s (o : out (A * st)) (P Q : Prop) : Eats s o -> Runs s o /\ (P -> Q -> Eats s o).
Proof. intro H. split; [now apply eats_runs|trivial]. Qed.
Lemma eats_call_num {A} k s (g : rval -> A) : wb s -> Eats s (bind (call (RFixed k) s) (fun '(v, s) => Ok (g v, s))).
Proof. intro W. apply eats_bind; [now apply call_eats|]. intros v s' _ M. apply runs_ok, M. Qed.
Lemma sl_fixed_runs t old s : SafeT t -> safe Auto t = true -> wb s -> Runs s (dec Fixed (TSl t) old s).
Proof.
  intros IH S W. destruct t; cbn [dec]; try (now apply bulk_runs); (apply dec_list_runs; [|exact W]; intros x s0 W0; apply (IH Auto S x s0 W0)).
Qed.
Lemma dec_safe : (forall t, SafeT t) /\ (forall fs, SafeF fs).
Proof.
  apply ty_flds_ind.
  - intros k m S old s W. apply both2. cbn [dec]. now apply eats_call_num.
  - intros k m S old s W. apply both2. cbn [dec]. apply eats_bind; [now apply call_eats|]. intros v s' _ M. apply runs_ok, M.
  - intros m S old s W. destruct m; cbn [dec]; try (apply both2; now apply dec_take_runs). split; [|discriminate]. apply runs_bind; [now apply call_runs|]. intros v s' _ M. apply runs_ok, M.
  - intros n t IH m S old s W. split; [|discriminate]. cbn [safe] in S. destruct t; cbn [dec]; try (now apply bulk_runs); (apply dec_list_runs; [|exact W]; intros x s0 W0; apply (IH Auto S x s0 W0)).
  - intros t IH m S old s W. destruct m; cbn [safe] in S.
    + split; [now apply sl_fixed_runs|discriminate].
    + apply both2. pose proof (fun o s0 => sl_fixed_runs t o s0 IH S) as F. assert (G : Eats s (@dec_with_count (TSl t) (dec Fixed (TSl t)) P32 old s)) by (apply count_runs; trivial; reflexivity).
      destruct t as [[]| | | | | |]; try exact G. cbn [dec]. now apply dec_take_runs.
    + split; [|discriminate].
      assert (G : safe Auto t && eats t = true -> Runs s (tail_loop (zero t) (dec Auto t) (length (r_body (s_rd s)) + length old + 1) old s)).
      { intro Q. apply andb_true_iff in Q. destruct Q as [Q1 Q2]. apply tail_loop_runs; [|exact W|unfold body; lia]. intros x s0 W0. now apply (IH Auto Q1 x s0 W0). }
      destruct t as [[]| | | | | |]; try discriminate S; try (apply G; exact S). cbn [dec]. destruct (failed s); [now apply runs_ok|]. apply runs_bind; [now apply call_runs|]. intros v s' _ M. apply runs_ok, M.
  - intros t IH m S old s W. split; [|discriminate]. cbn [safe] in S. destruct m; cbn [dec].
    + destruct old as [v|]; [|now apply runs_ok]. apply runs_bind; [apply (IH Fixed S v s W)|]. intros x s' _ M. apply runs_ok, M.
    + destruct old as [v|]; [|now apply runs_ok]. apply runs_bind; [apply (IH Fixed S v s W)|]. intros x s' _ M. apply runs_ok, M.
    + destruct (negb (failed s)); [now apply runs_ok|]. destruct (0 <? _); [|now apply runs_ok]. apply runs_bind; [apply (IH Tail S _ s W)|]. intros x s' _ M. apply runs_ok, M.
  - intros fs IH m S old s W. cbn [safe dec eats] in *. destruct (IH _ S old s W) as [A B]. split; [exact A|intros _; exact B].
  - intros m S old s W. cbn [dec_flds]. split; [now apply runs_ok|discriminate].
  - intros tg t IH fs IHf m S [old olds] s W. cbn [safe_flds] in S. apply andb_true_iff in S. destruct S as [S Sf]. cbn [dec_flds eats_flds].
    match goal with |- Runs s (bind ?o ?f) /\ _ => set (o1 := o) end.
    assert (H : Runs s o1 /\ (negb (drop true tg t) && match tg with TgSize _ | TgCnt _ => true | TgAuto => eats t | _ => false end = true -> Eats s o1)).
    { unfold o1. destruct (drop true tg t); [split; [now apply runs_ok|discriminate]|]. cbn [orb negb andb] in *. destruct tg as [| |p|p|].
      - split; [apply (IH Auto S old s W)|discriminate].
      - destruct (IH Auto S old s W) as [A B]. split; [exact A|intro E; now apply B].
      - apply both. pose proof (auto_take t p) as AT. destruct (dec_auto_take t p) as [f|].
        + destruct AT as [B F]. rewrite B in S. apply F; [now apply negb_true_iff|exact W].
        + rewrite AT in S. apply andb_true_iff in S. destruct S as [S S3]. apply andb_true_iff in S. destruct S as [S1 S2]. apply size_runs; trivial; [intros x s0 W0; apply (IH Fixed S2 x s0 W0)|].
          intro T. rewrite T in S3. intros x s0 W0. apply (IH Tail S3 x s0 W0).
      - apply both. pose proof (auto_take t p) as AT. destruct (dec_auto_take t p) as [f|].
        + destruct AT as [B F]. rewrite B in S. apply F; [now apply negb_true_iff|exact W].
        + rewrite AT in S. apply andb_true_iff in S. destruct S as [S1 S2]. apply count_runs; trivial. intros x s0 W0. apply (IH Fixed S2 x s0 W0).
      - split; [apply (IH m S old s W)|discriminate]. }
    clearbody o1. destruct H as [H1 H2]. split.
    + apply runs_bind; [exact H1|]. intros x s1 _ M. apply runs_bind; [apply (IHf m Sf olds s1 (oWb _ _ M))|]. intros xs s2 _ M2. apply runs_ok, M2.
    + intro E. apply orb_true_iff in E. destruct E as [E|E].
      * apply eats_bind; [now apply H2|]. intros x s1 _ M. apply runs_bind; [apply (IHf m Sf olds s1 (oWb _ _ M))|]. intros xs s2 _ M2. apply runs_ok, M2.
      * apply bind_eats; [exact H1|]. intros x s1 _ M. apply eats_bind; [now apply (IHf m Sf olds s1 (oWb _ _ M))|]. intros xs s2 _ M2. apply runs_ok, M2.
Qed.
