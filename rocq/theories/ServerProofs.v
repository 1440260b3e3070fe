(** Invariants of the server connection machine. *)
From Coq Require Import ZArith List Bool Arith Lia Permutation.
Import ListNotations.
From Verif Require Import ServerModel ServerSpec.
Open Scope Z_scope.

Inductive reach (m : option rcmap) : st -> list obs -> Prop :=
| reach0 : reach m (s_init m) []
| reachS s t e o s' : reach m s t -> step s e = (o, Some s') -> reach m s' (t ++ o).
Lemma run_reach_gen m es : forall s t, reach m s t -> forall o s', run s es = (o, Some s') -> reach m s' (t ++ o).
Proof.
  induction es as [|e es IH]; intros s t R o s' E; cbn [run] in E.
  - injection E as <- <-. now rewrite app_nil_r.
  - destruct (step s e) as [o1 [s1|]] eqn:S1; [|discriminate]. destruct (run s1 es) as [o2 s2] eqn:R2. injection E as <- ->. rewrite app_assoc. apply (IH s1); [|exact R2]. now apply (reachS m s t e).
Qed.
Lemma run_reach m es t s : run (s_init m) es = (t, Some s) -> reach m s t.
Proof. apply (run_reach_gen m es (s_init m) []). constructor. Qed.
Lemma run_crash_gen m es : forall s t, reach m s t -> forall o, run s es = (o, None) -> exists s1 t1 e o1, reach m s1 t1 /\ step s1 e = (o1, None) /\ t ++ o = t1 ++ o1.
Proof.
  induction es as [|e es IH]; intros s t R o E; cbn [run] in E; [discriminate|].
  destruct (step s e) as [o1 [s1|]] eqn:S1.
  - destruct (run s1 es) as [o2 s2] eqn:R2. injection E as <- ->. rewrite app_assoc. apply (IH s1 (t ++ o1)); [|exact R2]. now apply (reachS m s t e).
  - injection E as <-. now exists s, t, e, o1.
Qed.
Lemma run_crash m es t : run (s_init m) es = (t, None) -> exists s1 t1 e o1, reach m s1 t1 /\ step s1 e = (o1, None) /\ t = t1 ++ o1.
Proof. apply (run_crash_gen m es (s_init m) []). constructor. Qed.

(** nothing is or will be queued any more *)
Definition drained (s : st) : Prop := csRead s = true /\ inFly s = [] /\ blk s = None /\ out s = [] /\ rp s = RDone.
Record SI (s : st) : Prop := {
  si_buf : buf s = [];
  si_nd : NoDup (notes s);
  si_r1 : rp s <> RDone -> ~ In NRead (notes s) /\ kp s <> KRead /\ csRead s = false;
  si_r2 : rp s = RDone -> In NRead (notes s) \/ kp s = KRead \/ csRead s = true;
  si_r3 : csRead s = true -> ~ In NRead (notes s) /\ kp s <> KRead;
  si_r4 : kp s = KRead -> ~ In NRead (notes s);
  si_w1 : wp s <> WDone -> ~ In NWrite (notes s) /\ csWrite s = false;
  si_w2 : wp s = WDone -> In NWrite (notes s) \/ csWrite s = true;
  si_w3 : csWrite s = true -> ~ In NWrite (notes s);
  si_k1 : match kp s with KWrite | KCancel _ | KResp _ _ | KBlock _ => csWrite s = true | KRecv => csRead s && csWrite s = false | KDone => csRead s = true /\ csWrite s = true | KRead => True end;
  si_k2 : match kp s with KBlock _ => exists x, blk s = Some (x, true) | _ => forall x, blk s <> Some (x, true) end;
  si_k3 : csWrite s = true -> match kp s with KWrite | KCancel _ | KResp _ _ | KBlock _ => True | _ => csRead s = true \/ eof s = true end;
  si_e1 : wp s = WEmpty \/ In NEmpty (notes s) -> drained s;
  si_e2 : In NEmpty (notes s) -> match wp s with WEnd | WNote | WDone => True | _ => False end;
  si_c : closed s = true -> drained s;
  si_h : match wp s with WFlush | WRecv => csRead s = true -> inFly s = [] -> out s = [] -> blk s = None -> closed s = true | _ => True end }.
Lemma SI_init m : SI (s_init m).
Proof. constructor; cbn; try easy; [constructor|intros [H|[]]; discriminate]. Qed.

Ltac fields := cbn [rcm inFly nreq idOf comp out closed buf notes csRead csWrite eof rp wp kp waits blk
  w_inFly w_comp w_new w_out w_closed w_buf w_notes w_csRead w_csWrite w_eof w_rp w_wp w_kp w_waits w_blk put notify] in *.
Lemma respond_cases s x k o s' : buf s = [] -> respond s x k = (o, Some s') ->
  (ihas (inFly s) (res_id x) = false /\ o = [ODrop x] /\ s' = s) \/
  (ihas (inFly s) (res_id x) = true /\ o = [OAnswer x] /\ closed s = false /\
    ((out_full s = true /\ s' = w_blk (w_inFly s (idel (inFly s) (res_id x))) (Some (x, k))) \/
     (out_full s = false /\ s' = put (w_inFly s (idel (inFly s) (res_id x))) x))).
Proof.
  intros B E. unfold respond in E. destruct (ihas _ _) eqn:H.
  - right. fields. rewrite B in E. destruct (closed s) eqn:C; [discriminate|]. change (out_full (w_inFly s (idel (inFly s) (res_id x)))) with (out_full s) in E.
    destruct (out_full s) eqn:F; injection E as <- <-; (split; [reflexivity|split; [reflexivity|split; [reflexivity|]]]); [left|right]; now split.
  - left. injection E as <- <-. now repeat split.
Qed.
(** every step that is not a crash, as a list of small effects *)
Inductive eff : st -> ev -> list obs -> st -> Prop :=
| E_skip s e : eff s e [] s
| E_req s id : rp s = RIdle -> eff s (NetReq id) [OReq (nreq s) id] (w_rp (w_new s (S (nreq s)) (updn (idOf s) (nreq s) id)) (RIns (nreq s)))
| E_ping s id : rp s = RIdle -> eff s (NetPing id) [OPing id] (w_rp s (RPing id))
| E_eof s : eff s NetClose [] (w_eof s true)
| E_comp s r code body : (r < nreq s)%nat -> comp s r = false -> rp s <> RIns r -> eff s (Complete r code body) [OComp r code body]
    (w_waits (w_comp s (updn (comp s) r true)) (waits s ++ [mkRes (idOf s r) (wire_code (rcm s) code) body (Some r)]))
| E_fail s : match wp s with WWrite _ | WFlush | WEnd => True | _ => False end -> eff s WriteFail [OWriteErr] (w_wp s WNote)
| E_rnote s : rp s = RIdle -> eof s = true -> eff s Reader [] (w_rp s RNote)
| E_pong s id : rp s = RPing id -> closed s = false -> out_full s = false -> eff s Reader [OPong (mkRes id 0 [] None)] (w_rp (put s (mkRes id 0 [] None)) RIdle)
| E_ins s r : rp s = RIns r -> blk s = None -> eff s Reader [OSend r] (w_rp (w_inFly s (iset (inFly s) (idOf s r) r)) RIdle)
| E_rdone s : rp s = RNote -> notes_full s = false -> eff s Reader [] (w_rp (notify s NRead) RDone)
| E_wtake s x l : wp s = WSel \/ wp s = WRecv -> out s = x :: l -> eff s Writer [] (w_wp (w_out s l) (WWrite x))
| E_wend s : wp s = WSel \/ wp s = WRecv -> out s = [] -> closed s = true -> eff s Writer [] (w_wp s WEnd)
| E_wdef s : wp s = WSel -> out s = [] -> closed s = false -> eff s Writer [] (w_wp s WDef)
| E_wempty s : wp s = WDef -> blk s = None -> csRead s = true -> inFly s = [] -> out s = [] -> eff s Writer [] (w_wp s WEmpty)
| E_wflush s : wp s = WDef -> blk s = None -> ~ (csRead s = true /\ inFly s = [] /\ out s = []) -> eff s Writer [] (w_wp s WFlush)
| E_wrecv s : wp s = WFlush -> eff s Writer [] (w_wp s WRecv)
| E_wwrite s x : wp s = WWrite x -> eff s Writer [OWrite x] (w_wp s WSel)
| E_wempty2 s : wp s = WEmpty -> notes_full s = false -> eff s Writer [] (w_wp (notify s NEmpty) WEnd)
| E_wnote s : wp s = WEnd -> eff s Writer [] (w_wp s WNote)
| E_wdone s : wp s = WNote -> notes_full s = false -> eff s Writer [] (w_wp (notify s NWrite) WDone)
| E_kread s l : kp s = KRecv -> notes s = NRead :: l -> eff s Control [] (w_kp (w_notes s l) KRead)
| E_kwrite s l : kp s = KRecv -> notes s = NWrite :: l -> eff s Control [] (w_kp (w_csWrite (w_notes s l) true) KWrite)
| E_kempty s l : kp s = KRecv -> notes s = NEmpty :: l -> closed s = false -> csRead s && csWrite s = false -> eff s Control [] (w_kp (w_closed (w_notes s l) true) KRecv)
| E_kclose s : kp s = KRead -> blk s = None -> inFly s = [] -> out s = [] -> closed s = false -> csWrite s = false -> eff s Control [] (w_kp (w_closed (w_csRead s true) true) KRecv)
| E_kclosed s : kp s = KRead -> blk s = None -> inFly s = [] -> out s = [] -> closed s = false -> csWrite s = true -> eff s Control [OClosed] (w_kp (w_inFly (w_buf (w_closed (w_csRead s true) true) []) []) KDone)
| E_kopen s : kp s = KRead -> blk s = None -> inFly s <> [] \/ out s <> [] -> csWrite s = false -> eff s Control [] (w_kp (w_csRead s true) KRecv)
| E_kopend s : kp s = KRead -> blk s = None -> inFly s <> [] \/ out s <> [] -> csWrite s = true -> eff s Control [OClosed] (w_kp (w_inFly (w_buf (w_csRead s true) []) []) KDone)
| E_ksnap s : kp s = KWrite -> blk s = None -> eff s Control [] (w_kp s (KCancel (map snd (inFly s))))
| E_kfin s : kp s = KCancel [] -> csRead s = true -> csWrite s = true -> eff s Control [OClosed] (w_kp (w_inFly (w_buf s []) []) KDone)
| E_kclr s : kp s = KCancel [] -> csRead s = false -> eff s Control [] (w_kp (w_eof s true) KRecv)
| E_kskip s r l : kp s = KCancel (r :: l) -> comp s r = true -> eff s Control [] (w_kp s (KCancel l))
| E_kcancel s r l : kp s = KCancel (r :: l) -> comp s r = false -> eff s Control [OComp r RcCanceled []]
    (w_kp (w_comp s (updn (comp s) r true)) (KResp (mkRes (idOf s r) (wire_code (rcm s) RcCanceled) [] (Some r)) l))
| E_kdrop s x l : kp s = KResp x l -> blk s = None -> ihas (inFly s) (res_id x) = false -> eff s Control [ODrop x] (w_kp s (KCancel l))
| E_kput s x l : kp s = KResp x l -> blk s = None -> ihas (inFly s) (res_id x) = true -> closed s = false -> out_full s = false ->
    eff s Control [OAnswer x] (w_kp (put (w_inFly s (idel (inFly s) (res_id x))) x) (KCancel l))
| E_kblock s x l : kp s = KResp x l -> blk s = None -> ihas (inFly s) (res_id x) = true -> closed s = false -> out_full s = true ->
    eff s Control [OAnswer x] (w_kp (w_blk (w_inFly s (idel (inFly s) (res_id x))) (Some (x, true))) (KBlock l))
| E_drop s n x l : blk s = None -> take_nth n (waits s) = Some (x, l) -> ihas (inFly s) (res_id x) = false -> eff s (Responder n) [ODrop x] (w_waits s l)
| E_put s n x l : blk s = None -> take_nth n (waits s) = Some (x, l) -> ihas (inFly s) (res_id x) = true -> closed s = false -> out_full s = false ->
    eff s (Responder n) [OAnswer x] (put (w_inFly (w_waits s l) (idel (inFly s) (res_id x))) x)
| E_block s n x l : blk s = None -> take_nth n (waits s) = Some (x, l) -> ihas (inFly s) (res_id x) = true -> closed s = false -> out_full s = true ->
    eff s (Responder n) [OAnswer x] (w_blk (w_inFly (w_waits s l) (idel (inFly s) (res_id x))) (Some (x, false)))
| E_unb s x : blk s = Some (x, false) -> closed s = false -> out_full s = false -> eff s Unblock [] (put (w_blk s None) x)
| E_unbk s x l : blk s = Some (x, true) -> kp s = KBlock l -> closed s = false -> out_full s = false -> eff s Unblock [] (w_kp (put (w_blk s None) x) (KCancel l)).

Lemma k_check_eq s : k_check s = if csRead s && csWrite s then ([OClosed], Some (w_kp (w_inFly (w_buf s []) []) KDone)) else ok (w_kp s KRecv).
Proof. reflexivity. Qed.
Lemma step_eff s e o s' : SI s -> step s e = (o, Some s') -> eff s e o s'.
Proof.
  intros I E. pose proof (si_buf _ I) as B.
  assert (SK : ok s = (o, Some s') -> eff s e o s') by (intro Q; injection Q as <- <-; constructor).
  destruct e as [id|id| |r code body| | | | |n|]; cbn [step] in E.
  - destruct (rp s) eqn:R; try now apply SK. injection E as <- <-. now constructor.
  - destruct (rp s) eqn:R; try now apply SK. injection E as <- <-. now constructor.
  - injection E as <- <-. constructor.
  - destruct (Nat.ltb r (nreq s) && negb (comp s r) && _) eqn:C; [|now apply SK]. injection E as <- <-.
    apply andb_true_iff in C. destruct C as [C C3]. apply andb_true_iff in C. destruct C as [C1 C2]. apply Nat.ltb_lt in C1. apply negb_true_iff in C2. constructor; [exact C1|exact C2|].
    intro Q. rewrite Q, Nat.eqb_refl in C3. discriminate.
  - destruct (wp s) eqn:W; try (now apply SK); injection E as <- <-; constructor; now rewrite W.
  - unfold step_reader in E. destruct (rp s) eqn:R.
    + destruct (eof s) eqn:F; [|now apply SK]. injection E as <- <-. now constructor.
    + destruct (closed s) eqn:C; [discriminate|]. destruct (out_full s) eqn:F; [now apply SK|]. injection E as <- <-. now constructor.
    + destruct (blk s) eqn:K; [now apply SK|]. injection E as <- <-. now constructor.
    + destruct (notes_full s) eqn:F; [now apply SK|]. injection E as <- <-. now constructor.
    + now apply SK.
  - unfold step_writer in E. destruct (wp s) eqn:W.
    + destruct (out s) as [|x l] eqn:O; [destruct (closed s) eqn:C|]; injection E as <- <-; constructor; auto.
    + destruct (blk s) eqn:K; [now apply SK|]. rewrite B in E. destruct (csRead s) eqn:C; cbn [andb] in E.
      * destruct (inFly s) eqn:F; [destruct (out s) eqn:O|]; injection E as <- <-; constructor; auto; rewrite ?F, ?O, ?C; intros (Q1 & Q2 & Q3); congruence.
      * injection E as <- <-. constructor; auto. rewrite C. intros (Q1 & _). congruence.
    + injection E as <- <-. now constructor.
    + destruct (out s) as [|x l] eqn:O; [destruct (closed s) eqn:C; [|now apply SK]|]; injection E as <- <-; constructor; auto.
    + injection E as <- <-. now constructor.
    + destruct (notes_full s) eqn:F; [now apply SK|]. injection E as <- <-. now constructor.
    + injection E as <- <-. now constructor.
    + destruct (notes_full s) eqn:F; [now apply SK|]. injection E as <- <-. now constructor.
    + now apply SK.
  - unfold step_control in E. destruct (kp s) as [| | |l|x l|l|] eqn:K.
    + destruct (notes s) as [|[| |] l] eqn:N; [now apply SK| | |].
      * injection E as <- <-. now constructor.
      * injection E as <- <-. now constructor.
      * unfold k_close in E. fields. destruct (closed s) eqn:C; [discriminate|]. pose proof (si_k1 _ I) as K1. rewrite K in K1. rewrite k_check_eq in E. fields. rewrite K1 in E. injection E as <- <-. now constructor.
    + destruct (blk s) eqn:L; [now apply SK|]. unfold k_close in E. rewrite ?k_check_eq in E. fields. rewrite B in E. destruct (inFly s) eqn:F; [destruct (out s) eqn:O|].
      * destruct (closed s) eqn:C; [discriminate|]. destruct (csWrite s) eqn:CW; cbn [andb] in E; injection E as <- <-; [apply E_kclosed|apply E_kclose]; assumption.
      * destruct (csWrite s) eqn:CW; cbn [andb] in E; injection E as <- <-; constructor; auto; rewrite ?F, ?O; auto; right; discriminate.
      * destruct (csWrite s) eqn:CW; cbn [andb] in E; injection E as <- <-; constructor; auto; rewrite ?F, ?O; auto; left; discriminate.
    + destruct (blk s) eqn:L; [now apply SK|]. injection E as <- <-. now constructor.
    + destruct l as [|r l].
      * pose proof (si_k1 _ I) as K1. rewrite K in K1. destruct (csRead s) eqn:C; rewrite k_check_eq in E; fields; rewrite ?C, K1 in E; cbn [andb] in E; injection E as <- <-; [now apply E_kfin|now constructor].
      * destruct (comp s r) eqn:C; injection E as <- <-; [now apply (E_kskip s r l)|now apply (E_kcancel s r l)].
    + destruct (blk s) eqn:L; [now apply SK|]. destruct (respond s x true) as [o1 [s1|]] eqn:R; [|discriminate]. injection E as <- <-.
      destruct (respond_cases _ _ _ _ _ B R) as [(H & -> & ->)|(H & -> & C & [(F & ->)|(F & ->)])]; fields; rewrite ?L; constructor; auto.
    + now apply SK.
    + now apply SK.
  - destruct (blk s) eqn:L; [now apply SK|]. destruct (take_nth n (waits s)) as [[x l]|] eqn:T; [|now apply SK].
    destruct (respond_cases (w_waits s l) _ _ _ _ B E) as [(H & -> & ->)|(H & -> & C & [(F & ->)|(F & ->)])]; fields; econstructor; eauto.
  - destruct (blk s) as [[x k]|] eqn:L; [|now apply SK]. destruct (closed s) eqn:C; [discriminate|]. destruct (out_full s) eqn:F; [now apply SK|]. injection E as <- <-.
    pose proof (si_k2 _ I) as K2. destruct k.
    + fields. destruct (kp s) as [| | |l|y l|l|] eqn:K; try (elim (K2 x); assumption). now constructor.
    + now constructor.
Qed.
Lemma notes_ok s n : NoDup (notes s) -> ~ In n (notes s) -> NoDup (notes s ++ [n]).
Proof. intros N H. apply (Permutation_NoDup (Permutation_cons_append (notes s) n)). now constructor. Qed.
Lemma nd_snoc {A} (l : list A) n : NoDup l -> ~ In n l -> NoDup (l ++ [n]).
Proof. intros N H. apply (Permutation_NoDup (Permutation_cons_append l n)). now constructor. Qed.
Lemma app_not_nil {A} (l : list A) x : l ++ [x] <> []. Proof. now destruct l. Qed.
Ltac spec := repeat match goal with
  | H : ?A -> ?B |- _ =>
      match type of A with Prop => idtac end;
      let K := fresh "K" in assert (K : A) by (first [assumption | reflexivity | congruence | (intro; congruence) | (left; congruence) | (right; congruence) | (left; reflexivity) | (right; left; reflexivity)]); specialize (H K); clear K
  | H : _ /\ _ |- _ => destruct H
  end.
Ltac sols := first [assumption | congruence | easy | (intro; congruence) | tauto | (intuition congruence)
  | (left; congruence) | (right; congruence)
  | (apply notes_ok; cbn; (assumption || tauto))
  | (match goal with H : NoDup (_ :: _) |- _ => inversion H; subst; (assumption || tauto) end)].
Lemma SI_eff s e o s' : SI s -> eff s e o s' -> SI s'.
Proof.
  intros I H. pose proof I as I0. destruct I as [i1 i2 i3 i4 i5 i6 i7 i8 i9 i10 i11 i12 i13 i14 i15 i16]. unfold drained in *.
  destruct H; try exact I0; destruct s; fields; subst; constructor; unfold drained; fields; clear I0;
   try assumption; rewrite ?in_app_iff; cbn [In] in *;
   try (match goal with |- NoDup _ => idtac | |- match ?x with _ => _ end => first [is_var x; destruct x; fields|idtac] end);
   try exact Logic.I; intros; cbn [app In] in *;
   repeat match goal with
   | H : _ \/ False |- _ => destruct H as [H|[]]
   | H : In _ (_ ++ _) |- _ => apply in_app_or in H; cbn [In] in H
   | H : ?x ++ [_] = [] |- _ => elim (app_not_nil _ _ H)
   end; spec; try sols.
  all: try (match goal with |- NoDup (?l ++ _) => apply nd_snoc; [assumption|]; solve [assumption | tauto | (intro; spec; tauto)] end).
  all: try (eexists; reflexivity).
  all: try (match goal with H : exists x, _ = Some _ |- _ => destruct H; discriminate end).
  all: try (match goal with H : ihas ?l _ = true, K : ?l = [] |- _ => rewrite K in H; discriminate end).
  - now destruct kp; auto.
  - now destruct wp; spec.
  - destruct rp; spec; try discriminate; now repeat split.
  - destruct rp; spec; try discriminate; now repeat split.
  - destruct rp; spec; try discriminate; now repeat split.
Qed.
Lemma SI_reach m s t : reach m s t -> SI s.
Proof. induction 1 as [|s t e o s' R IH E]; [apply SI_init|]. exact (SI_eff _ _ _ _ IH (step_eff _ _ _ _ IH E)). Qed.
