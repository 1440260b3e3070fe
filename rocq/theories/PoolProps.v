(** C111: concurrent calls of marshal.Write. *)
From Coq Require Import List Bool Arith ZArith Lia.
Import ListNotations.
From Verif Require Import Base PrimModel PrimSpec PrimProofs PrimWriter CodecModel PoolModel PoolSpec PoolProofs PoolCodec.
Open Scope nat_scope.

(** ** C111 *)
(** Whatever other goroutines do before, meanwhile and after, and whatever the pool gives: the bytes of the slice a call
    returned are those of its own value, as long as its own caller does not change them. *)
Theorem C111_exact_and_kept : forall es t s k acts o sl, start es = (t, s) -> In (QCall k acts) t -> In (QRet k o sl) t ->
  ~ In (QPoke k) t -> sl_bytes (w_mem (objs s o)) sl = flat_map bytes_of acts.
Proof.
  intros es t s k acts o sl E C R NP. apply start_inv in E. destruct E as [kind I].
  pose proof (iLoc _ _ _ I k) as L. rewrite (iRet _ _ _ I k o sl R) in L. destruct L as (_ & _ & _ & _ & a & A & _ & F).
  rewrite (iOne _ _ _ I k acts a C A) in *. now apply F.
Qed.
(** The results of two calls share no byte; each has its bytes where it says. *)
Theorem C111_apart : forall es t s k k' o sl o' sl', start es = (t, s) -> In (QRet k o sl) t -> In (QRet k' o' sl') t ->
  (k <> k' -> apart o sl o' sl') /\ length (sl_bytes (w_mem (objs s o)) sl) = s_len sl.
Proof.
  intros es t s k k' o sl o' sl' E R R'. apply start_inv in E. destruct E as [kind I]. apply (iRet _ _ _ I) in R, R'. split.
  - intro N. apply (iApart _ _ _ I k k'); trivial; [now rewrite R|now rewrite R'].
  - pose proof (iLoc _ _ _ I k) as L. rewrite R in L. apply L.
Qed.
(** A call panics only if its own value does, and returns only if its own value does not. *)
Theorem C111_own_panics : forall es t s k acts, start es = (t, s) -> In (QCall k acts) t ->
  (In (QPanic k) t -> forallb calm acts = false) /\ (forall o sl, In (QRet k o sl) t -> forallb calm acts = true).
Proof.
  intros es t s k acts E C. apply start_inv in E. destruct E as [kind I]. split.
  - intro P. destruct (iPan _ _ _ I k P) as (a & A & B). now rewrite (iOne _ _ _ I k acts a C A).
  - intros o sl R. pose proof (iLoc _ _ _ I k) as L. rewrite (iRet _ _ _ I k o sl R) in L. destruct L as (_ & _ & _ & _ & a & A & B & _). now rewrite (iOne _ _ _ I k acts a C A).
Qed.

Definition irank (i : item) : nat := match i with IAct a => steps a | _ => 1 end.
Definition frank (f : frame) : nat := list_sum (map irank (f_items f)).
Definition rank (c : pc) : nat :=
  match c with
  | PNew => 0
  | PGet acts => 3 + list_sum (map steps acts)
  | PRun fs => 2 + list_sum (map frank fs) + 4 * (length fs - 1)
  | PPut _ _ => 1
  | PRet _ _ | PPanic => 0
  end.
Lemma sum_cons a l : list_sum (a :: l) = a + list_sum l.
Proof. reflexivity. Qed.
Lemma acts_rank l : list_sum (map irank (map IAct l)) = list_sum (map steps l).
Proof. now rewrite map_map. Qed.
Ltac rk := cbn [rank map frank f_items length irank steps] in *; repeat rewrite sum_cons; unfold frank; cbn [f_items map irank steps]; repeat rewrite sum_cons; rewrite ?acts_rank; cbn [list_sum fold_right]; lia.
Lemma write_rank s k o c f fs : rank (pcs (snd (write s k o c (f :: fs))) k) <= rank (PRun (f :: fs)).
Proof. unfold write. destruct (w_call (objs s o) c); fields; rewrite upd_same; cbn [rank]; lia. Qed.
Lemma go_rank kind t s k c : Inv kind t s -> rank (pcs (snd (step s (Go k c))) k) <= rank (pcs s k) - 1.
Proof.
  intro I. pose proof (iLoc _ _ _ I k) as L. cbn [step]. destruct (pcs s k) as [|acts|fs|o sl|o sl|] eqn:E; fields; rewrite ?E; try (cbn [rank]; lia).
  - unfold get_pool. destruct (match c with Some i => nth_error (pool s) i | None => None end) as [o|]; [destruct c|]; cbn [alloc]; fields; rewrite upd_same; rk.
  - destruct fs as [|[o its sz] fs]; [destruct L as [[] _]|]. destruct its as [|[a|o' sl|o'] its].
    + destruct fs as [|[p its' sz'] fs]; cbn [step_run]; unfold w_Written; fields; rewrite upd_same; rk.
    + destruct a as [c'|sz' body|]; cbn [step_run].
      * eapply Nat.le_trans; [apply write_rank|]. rk.
      * unfold get_chan. destruct (chan s); cbn [alloc]; fields; rewrite upd_same; rk.
      * fields. rewrite upd_same. cbn [rank]. lia.
    + cbn [step_run]. eapply Nat.le_trans; [apply write_rank|]. rk.
    + cbn [step_run]. fields. rewrite upd_same. rk.
  - rewrite upd_same. cbn [rank]. lia.
Qed.
Definition of_k (k : nat) (e : ev) : bool := match e with Go j _ => j =? k | _ => false end.
Definition begun (c : pc) : Prop := c <> PNew.
Lemma other_pc s k e : of_k k e = false -> begun (pcs s k) -> pcs (snd (step s e)) k = pcs s k.
Proof.
  intros F B. destruct e as [j acts|j c|i|j i v]; cbn [step of_k] in *.
  - destruct (pcs s j) eqn:E; fields; trivial. apply upd_other. intros ->. now rewrite E in B.
  - apply Nat.eqb_neq in F. destruct (pcs s j) as [|acts|fs|o sl|o sl|]; fields; trivial.
    + unfold get_pool. destruct (match c with Some i => nth_error (pool s) i | None => None end) as [o|]; [destruct c|]; cbn [alloc]; fields; apply upd_other; congruence.
    + destruct fs as [|[o its sz] fs]; [reflexivity|]. destruct its as [|[a|o' sl|o'] its].
      * destruct fs as [|[p its' sz'] fs]; cbn [step_run]; unfold w_Written; fields; apply upd_other; congruence.
      * destruct a as [c'|sz' body|]; cbn [step_run].
        -- unfold write. destruct (w_call _ _); fields; apply upd_other; congruence.
        -- unfold get_chan. destruct (chan s); cbn [alloc]; fields; apply upd_other; congruence.
        -- fields. apply upd_other. congruence.
      * cbn [step_run]. unfold write. destruct (w_call _ _); fields; apply upd_other; congruence.
      * cbn [step_run]. fields. rewrite upd_other by congruence. unfold put_chan. now destruct (_ <? _).
    + apply upd_other. congruence.
  - reflexivity.
  - destruct (pcs s j); fields; trivial. destruct (_ <? _); reflexivity.
Qed.
Lemma begun_step s k e : begun (pcs s k) -> begun (pcs (snd (step s e)) k).
Proof.
  intro B. destruct (of_k k e) eqn:F; [|now rewrite other_pc]. destruct e as [j acts|j c|i|j i v]; try discriminate. cbn [of_k] in F. apply Nat.eqb_eq in F. subst j. cbn [step].
  destruct (pcs s k) as [|acts|fs|o sl|o sl|] eqn:E; fields; rewrite ?E; trivial.
  - unfold get_pool. destruct (match c with Some i => nth_error (pool s) i | None => None end) as [o|]; [destruct c|]; cbn [alloc]; fields; rewrite upd_same; discriminate.
  - destruct fs as [|[o its sz] fs]; [cbn; now rewrite E|]. destruct its as [|[a|o' sl|o'] its].
    + destruct fs as [|[p its' sz'] fs]; cbn [step_run]; unfold w_Written; fields; rewrite upd_same; discriminate.
    + destruct a as [c'|sz' body|]; cbn [step_run].
      * unfold write. destruct (w_call _ _); fields; rewrite upd_same; discriminate.
      * unfold get_chan. destruct (chan s); cbn [alloc]; fields; rewrite upd_same; discriminate.
      * fields. rewrite upd_same. discriminate.
    + cbn [step_run]. unfold write. destruct (w_call _ _); fields; rewrite upd_same; discriminate.
    + cbn [step_run]. fields. rewrite upd_same. discriminate.
  - rewrite upd_same. discriminate.
Qed.
Lemma run_rank es : forall kind t s k, Inv kind t s -> begun (pcs s k) -> rank (pcs (snd (run s es)) k) <= rank (pcs s k) - length (filter (of_k k) es) /\ begun (pcs (snd (run s es)) k).
Proof.
  induction es as [|e es IH]; intros kind t s k I B; cbn [run]; [cbn; split; [lia|exact B]|].
  destruct (step_inv kind t s e I) as [kind' I']. pose proof (begun_step s k e B) as B'.
  assert (R : rank (pcs (snd (step s e)) k) <= rank (pcs s k) - if of_k k e then 1 else 0).
  { destruct (of_k k e) eqn:F; [|rewrite other_pc by assumption; lia]. destruct e as [j acts|j c|i|j i v]; try discriminate. cbn [of_k] in F. apply Nat.eqb_eq in F. subst j. now apply (go_rank kind t). }
  destruct (step s e) as [o s1]. fields. specialize (IH kind' (t ++ o) s1 k I' B'). destruct (run s1 es) as [o' s2]. fields. destruct IH as [IH1 IH2]. split; [|exact IH2]. cbn [filter]. destruct (of_k k e); cbn [length]; lia.
Qed.
Lemma run_app es : forall s es', run s (es ++ es') = (fst (run s es) ++ fst (run (snd (run s es)) es'), snd (run (snd (run s es)) es')).
Proof.
  induction es as [|e es IH]; intros s es'; cbn [run app fst snd]; [now rewrite <- surjective_pairing|].
  destruct (step s e) as [o s1]. rewrite IH. destruct (run s1 es) as [o2 s2]. cbn [fst snd]. now rewrite app_assoc.
Qed.
Lemma told_step t s e : (forall k o sl, pcs s k = PRet o sl -> In (QRet k o sl) t) -> forall k o sl, pcs (snd (step s e)) k = PRet o sl -> In (QRet k o sl) (t ++ fst (step s e)).
Proof.
  intros H k o sl. destruct (of_k k e) eqn:F.
  - destruct e as [j acts|j c|i|j i v]; try discriminate. cbn [of_k] in F. apply Nat.eqb_eq in F. subst j. cbn [step]. intro R. apply in_or_app.
    destruct (pcs s k) as [|acts|fs|o1 sl1|o1 sl1|] eqn:E; fields; try (left; apply H; congruence).
    + unfold get_pool in R. destruct (match c with Some i => nth_error (pool s) i | None => None end) as [o1|]; [destruct c|]; cbn [alloc] in R; fields; rewrite upd_same in R; discriminate.
    + destruct fs as [|[o1 its sz] fs]; [cbn in R; congruence|]. destruct its as [|[a|o' sl'|o'] its].
      * destruct fs as [|[p its' sz'] fs]; cbn [step_run] in R; unfold w_Written in R; fields; rewrite upd_same in R; discriminate.
      * destruct a as [c'|sz' body|]; cbn [step_run] in R.
        -- unfold write in R. destruct (w_call _ _); fields; rewrite upd_same in R; discriminate.
        -- unfold get_chan in R. destruct (chan s); cbn [alloc] in R; fields; rewrite upd_same in R; discriminate.
        -- fields. rewrite upd_same in R. discriminate.
      * cbn [step_run] in R. unfold write in R. destruct (w_call _ _); fields; rewrite upd_same in R; discriminate.
      * cbn [step_run] in R. fields. rewrite upd_same in R. discriminate.
    + rewrite upd_same in R. injection R as <- <-. right. now left.
  - intro R. apply in_or_app. left. apply H. destruct (pcs s k) eqn:E; try (rewrite other_pc in R; [congruence|exact F|rewrite E; discriminate]).
    exfalso. destruct e as [j acts|j c|i|j i v]; cbn [step of_k] in *.
    + destruct (pcs s j); fields; try congruence. spl k j; [discriminate|congruence].
    + apply Nat.eqb_neq in F. destruct (pcs s j) as [|acts|fs|o1 sl1|o1 sl1|]; fields; try congruence.
      * unfold get_pool in R. destruct (match c with Some i => nth_error (pool s) i | None => None end) as [o1|]; [destruct c|]; cbn [alloc] in R; fields; rewrite upd_other in R by congruence; congruence.
      * destruct fs as [|[o1 its sz] fs]; [cbn in R; congruence|]. destruct its as [|[a|o' sl'|o'] its].
        -- destruct fs as [|[p its' sz'] fs]; cbn [step_run] in R; unfold w_Written in R; fields; rewrite upd_other in R by congruence; congruence.
        -- destruct a as [c'|sz' body|]; cbn [step_run] in R.
           ++ unfold write in R. destruct (w_call _ _); fields; rewrite upd_other in R by congruence; congruence.
           ++ unfold get_chan in R. destruct (chan s); cbn [alloc] in R; fields; rewrite upd_other in R by congruence; congruence.
           ++ fields. rewrite upd_other in R by congruence. congruence.
        -- cbn [step_run] in R. unfold write in R. destruct (w_call _ _); fields; rewrite upd_other in R by congruence; congruence.
        -- cbn [step_run] in R. fields. rewrite upd_other in R by congruence. unfold put_chan in R. destruct (_ <? _); fields; congruence.
      * rewrite upd_other in R by congruence. congruence.
    + fields. congruence.
    + destruct (pcs s j); fields; try congruence. destruct (_ <? _); fields; congruence.
Qed.
Lemma run_told es : forall t s t' s', (forall k o sl, pcs s k = PRet o sl -> In (QRet k o sl) t) -> run s es = (t', s') -> forall k o sl, pcs s' k = PRet o sl -> In (QRet k o sl) (t ++ t').
Proof.
  induction es as [|e es IH]; intros t s t' s' H E k o sl R; cbn [run] in E.
  - injection E as <- <-. rewrite app_nil_r. now apply H.
  - pose proof (told_step t s e H) as H1. destruct (step s e) as [o1 s1]. destruct (run s1 es) as [o2 s2] eqn:E2. injection E as <- <-. rewrite app_assoc. now apply (IH (t ++ o1) s1 o2 s2).
Qed.
Lemma calls_step s e k acts : In (QCall k acts) (fst (step s e)) -> e = Call k acts /\ pcs s k = PNew.
Proof.
  intro C. destruct e as [j a|j c|i|j i v]; cbn [step] in C.
  - destruct (pcs s j) eqn:P; fields; try now destruct C. destruct C as [C|[]]. injection C as -> ->. now split.
  - exfalso. destruct (pcs s j) as [|a|fs|o1 sl1|o1 sl1|]; fields; try now destruct C.
    + destruct (get_pool s c). now destruct C.
    + destruct fs as [|[o1 its sz] fs]; [now destruct C|]. destruct its as [|[a|o' sl'|o'] its].
      * destruct fs as [|[p its' sz'] fs]; cbn [step_run] in C; unfold w_Written in C; now destruct C.
      * destruct a as [c'|sz' body|]; cbn [step_run] in C.
        -- unfold write in C. destruct (w_call _ _); fields; [now destruct C|destruct C as [C|[]]; discriminate].
        -- destruct (get_chan s); now destruct C.
        -- destruct C as [C|[]]. discriminate.
      * cbn [step_run] in C. unfold write in C. destruct (w_call _ _); fields; [now destruct C|destruct C as [C|[]]; discriminate].
      * now destruct C.
  - destruct C.
  - exfalso. destruct (pcs s j); fields; try now destruct C. destruct (_ <? _); fields; [destruct C as [C|[]]; discriminate|now destruct C].
Qed.
Definition within (k : nat) (acts : list act) (t : list obs) (s : st) : Prop := In (QCall k acts) t -> rank (pcs s k) <= 3 + list_sum (map steps acts).
Lemma run_within k acts es : forall kind t s t' s', Inv kind t s -> within k acts t s -> run s es = (t', s') -> within k acts (t ++ t') s'.
Proof.
  induction es as [|e es IH]; intros kind t s t' s' I H E; cbn [run] in E; [injection E as <- <-; now rewrite app_nil_r|].
  destruct (step_inv kind t s e I) as [kind1 I1].
  assert (H1 : within k acts (t ++ fst (step s e)) (snd (step s e))).
  { intro C. apply in_app_or in C. destruct C as [C|C].
    - assert (BB : begun (pcs s k)) by (intro X; pose proof (iLoc _ _ _ I k) as L; rewrite X in L; now apply (L acts)).
      destruct (run_rank [e] kind t s k I BB) as [RR _]. cbn [run] in RR. destruct (step s e) as [o1 s1]. fields. specialize (H C). lia.
    - apply calls_step in C. destruct C as [-> P]. cbn [step]. rewrite P. fields. rewrite upd_same. cbn [rank]. lia. }
  destruct (step s e) as [o1 s1]. destruct (run s1 es) as [o2 s2] eqn:E2. injection E as <- <-. rewrite app_assoc. now apply (IH kind1 (t ++ o1) s1).
Qed.
(** A call waits for nobody: it has ended once it was given as many steps as its own value needs, whatever the others do or
    do not do. *)
Theorem C111_wait_free : forall es es' t s t' s' k acts, start es = (t, s) -> In (QCall k acts) t -> start (es ++ es') = (t', s') ->
  3 + list_sum (map steps acts) <= length (filter (of_k k) es') -> (exists o sl, In (QRet k o sl) t') \/ In (QPanic k) t'.
Proof.
  intros es es' t s t' s' k acts E C E' LE. pose proof E as E0. apply start_inv in E. destruct E as [kind I].
  pose proof (start_inv _ _ _ E') as [kind' I'].
  pose proof E' as E1. unfold start in E', E0. rewrite run_app, E0 in E'. fields. destruct (run s es') as [t2 s2] eqn:R2. fields. injection E' as <- <-.
  assert (B : begun (pcs s k)) by (intro X; pose proof (iLoc _ _ _ I k) as L; rewrite X in L; now apply (L acts)).
  destruct (run_rank es' kind t s k I B) as [RK BG]. rewrite R2 in *. fields.
  assert (Q : within k acts t s) by (apply (run_within k acts es (fun _ => true) [] s_init t s init_inv); [intros []|exact E0]). specialize (Q C).
  destruct (pcs s2 k) eqn:P; cbn [rank] in RK; try lia.
  - now destruct BG.
  - left. exists o, s0. apply (run_told (es ++ es') [] s_init _ s2); [discriminate|exact E1|exact P].
  - right. now apply (iEnd _ _ _ I').
Qed.

Lemma of_value es t s k acts (e : out (list Z)) : start es = (t, s) -> In (QCall k acts) t -> agrees e acts ->
  (In (QPanic k) t -> forall b, e <> Ok b) /\
  (forall o sl, In (QRet k o sl) t -> exists b, e = Ok b /\ (~ In (QPoke k) t -> sl_bytes (w_mem (objs s o)) sl = b)).
Proof.
  intros E C G. destruct (C111_own_panics es t s k acts E C) as [P R]. split.
  - intros X b ->. apply P in X. destruct G as [G _]. congruence.
  - intros o sl X. pose proof (R o sl X) as CA. destruct e as [b| |]; cbn [agrees] in G; try congruence. destruct G as [_ G]. exists b. split; [reflexivity|].
    intro NP. rewrite <- G. now apply (C111_exact_and_kept es t s k acts o sl).
Qed.
(** The same, of values (CodecModel.v): whatever goroutines write, a call of marshal.Write or WriteTail with a value panics only
    if the encoder gives nothing for this value, and what it returns is what the encoder gives for this value alone. *)
Theorem C111_values : forall es t s k ty v (tail : bool), start es = (t, s) -> In (QCall k ((if tail then tail_acts else write_acts) ty v)) t ->
  (In (QPanic k) t -> forall b, (if tail then WriteTail else Write) ty v <> Ok b) /\
  (forall o sl, In (QRet k o sl) t -> exists b, (if tail then WriteTail else Write) ty v = Ok b /\ (~ In (QPoke k) t -> sl_bytes (w_mem (objs s o)) sl = b)).
Proof.
  intros es t s k ty v tail E C. destruct tail; apply (of_value es t s k _ _ E C); [apply agrees_WriteTail|apply agrees_Write].
Qed.

(** Two goroutines write values with sizes not known beforehand; the second gets the Writers the first put back, while the first
    still has its result; a third panics and its Writers are lost. *)
Definition v1 : list act := [Emit (WFixed U8 7); Sized (fun n => IntUint8 (Z.of_nat n)) [Emit (WFixed U8 1); Emit (WBytes [2; 3]%Z)]; Emit (WFixed U8 9)].
Definition v2 : list act := [Sized (fun n => IntUint8 (Z.of_nat n)) [Sized (fun n => IntUint8 (Z.of_nat n)) [Emit (WFixed U8 5)]]].
Definition gos (k : nat) (c : option nat) (n : nat) : list ev := repeat (Go k c) n.
Definition hist : list ev := [Call 1 v1; Call 2 v2; Call 3 [Emit (WFixed U8 4); Boom]] ++ gos 1 None 13 ++ gos 3 None 3 ++ gos 2 (Some 0) 18 ++ [Poke 2 0 99].
Example C111_ex : exists o1 s1 o2 s2, let '(t, s) := start hist in
  t = [QCall 1 v1; QCall 2 v2; QCall 3 [Emit (WFixed U8 4); Boom]; QRet 1 o1 s1; QPanic 3; QRet 2 o2 s2; QPoke 2] /\ o1 = o2 /\ s_arr s1 = s_arr s2 /\
  sl_bytes (w_mem (objs s o1)) s1 = [7; 3; 1; 2; 3; 9]%Z /\ sl_bytes (w_mem (objs s o2)) s2 = [99; 1; 5]%Z /\
  flat_map bytes_of v1 = [7; 3; 1; 2; 3; 9]%Z /\ flat_map bytes_of v2 = [2; 1; 5]%Z.
Proof. vm_compute. do 4 eexists. repeat split; reflexivity. Qed.
Example C111_ex_calm : forallb calm v1 = true /\ forallb calm v2 = true. Proof. now split. Qed.
(** struct { A []string; B uint8 } and the same value inside a struct with size(ber) *)
Definition T_in := TStruct (FCons TgAuto (TSl TStr) (FCons TgAuto (TNum U8) FNil)).
Definition T_out := TStruct (FCons (TgSize PBer) T_in FNil).
Definition results (x : list obs * st) : list (nat * nat * list Z) := flat_map (fun q => match q with QRet k o sl => [(k, o, sl_bytes (w_mem (objs (snd x) o)) sl)] | _ => [] end) (fst x).
Example C111_ex_values : let a := [[1]; []]%Z in
  results (start ([Call 1 (write_acts T_in (a, (7%Z, tt))); Call 2 (tail_acts T_out ((a, (7%Z, tt)), tt))] ++ gos 1 None 14 ++ gos 2 (Some 0) 20)) =
    [(1, 0, [2; 0; 0; 0; 1; 0; 0; 0; 1; 0; 0; 0; 0; 7]%Z); (2, 0, [14; 2; 0; 0; 0; 1; 0; 0; 0; 1; 0; 0; 0; 0; 7]%Z)] /\
  Write T_in (a, (7%Z, tt)) = Ok [2; 0; 0; 0; 1; 0; 0; 0; 1; 0; 0; 0; 0; 7]%Z /\
  WriteTail T_out ((a, (7%Z, tt)), tt) = Ok [14; 2; 0; 0; 0; 1; 0; 0; 0; 1; 0; 0; 0; 0; 7]%Z.
Proof. split; [vm_compute; reflexivity|]. split; vm_compute; reflexivity. Qed.
Print Assumptions C111_values.
Print Assumptions C111_exact_and_kept.
Print Assumptions C111_apart.
Print Assumptions C111_own_panics.
Print Assumptions C111_wait_free.
