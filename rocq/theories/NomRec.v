(** The codecs of types that contain themselves are the same in every history if their sizes vary from the first field on. *)
From Coq Require Import ZArith List Bool Arith Lia Relations.
Import ListNotations.
From Verif Require Import RegModel RegSpec RegProofs FillModel FillProofs NomModel NomSpec NomProofs.
Open Scope nat_scope.

(** ** what Fill computes depends on the sizes of the parts *)
Lemma scan_neg fs : forall is, fst (scan fs is (-1)%Z) = (-1)%Z.
Proof.
  induction fs as [|[tg t] fs IH]; intros is; [reflexivity|]. destruct tg; cbn [scan]; [specialize (IH is); destruct (scan fs is (-1)%Z); exact IH|..];
  (destruct is as [|i is]; [reflexivity|]; cbn [Z.leb Z.compare];
    match goal with |- context[CodecModel.prefix_sz ?a ?b ?c] => destruct (CodecModel.prefix_sz a b c) end; cbn [Z.leb Z.compare];
    match goal with |- context[CodecModel.dropped ?a ?b] => destruct (CodecModel.dropped a b) end; cbn [Z.leb Z.compare];
    specialize (IH is); destruct (scan fs is (-1)%Z); exact IH).
Qed.
Lemma scan_head sk e fs is i : Forall (fun f => fst f = TgSkip) sk -> i_sz i = (-1)%Z -> fst (scan (sk ++ (TgAuto, e) :: fs) (i :: is) 0%Z) = (-1)%Z.
Proof.
  intros F E. induction F as [|[tg t] sk H F IH]; cbn [app].
  - cbn [scan CodecModel.prefix_sz Z.leb Z.compare]. unfold CodecModel.dropped. rewrite E. cbn [Z.eqb Z.add Z.leb Z.compare]. pose proof (scan_neg fs is) as S. destruct (scan fs is (-1)%Z). exact S.
  - cbn in H. subst tg. cbn [scan]. destruct (scan _ (i :: is) 0%Z). exact IH.
Qed.
Lemma scan_keep fs : forall is is' z z', map i_sz is = map i_sz is' -> snd (scan fs is z) = snd (scan fs is' z').
Proof.
  induction fs as [|[tg t] fs IH]; intros is is' z z' M; [reflexivity|]. destruct tg; cbn [scan]; [specialize (IH is is' z z' M); destruct (scan fs is z), (scan fs is' z'); cbn in *; now subst|..];
  (destruct is as [|i is], is' as [|i' is']; try discriminate; [reflexivity|]; injection M as M1 M; cbv zeta; rewrite M1;
   match goal with |- context[CodecModel.dropped ?a ?b] => destruct (CodecModel.dropped a b) end;
   match goal with |- snd (let '(_, _) := scan fs is ?x in _) = snd (let '(_, _) := scan fs is' ?y in _) => specialize (IH is is' x y M); destruct (scan fs is x), (scan fs is' y); cbn in *; now subst end).
Qed.

Section Rec.
Variable T : nat -> shape.
Lemma fin_sizes t is is' : map i_sz is = map i_sz is' -> i_sz (fin T t is) = i_sz (fin T t is') -> fin T t is = fin T t is'.
Proof.
  unfold fin. intros M E. destruct (T t) eqn:K; try reflexivity.
  - cbn [i_sz] in E. now rewrite E.
  - destruct is as [|i is], is' as [|i' is']; try discriminate; [reflexivity|]. injection M as M _. now rewrite M.
  - pose proof (scan_keep fs is is' 0%Z 0%Z M) as S. destruct (scan fs is 0%Z) as [z ks], (scan fs is' 0%Z) as [z' ks']. cbn in *. now subst.
Qed.
Lemma skips_needs b sk fs : Forall (fun f => fst f = TgSkip) sk -> b = false -> field_instrs b (sk ++ fs) = field_instrs false fs.
Proof. intros F ->. induction F as [|[tg t] sk H F IH]; [reflexivity|]. cbn in H. subst tg. exact IH. Qed.
(** the parts a varying type has its size from *)
Lemma varies_fin t is : varies T t -> Forall2 (fun u i => varies T u -> i_sz i = (-1)%Z) (needs (prog T) t) is -> i_sz (fin T t is) = (-1)%Z.
Proof.
  intros V F. unfold needs, prog, fin in *. destruct V as [L|n e E V|sk e fs E S V].
  - destruct (T t); try contradiction; reflexivity.
  - rewrite E in *. cbn in F. inversion F as [|? ? ? ? H]; subst. rewrite (H V). reflexivity.
  - rewrite E in *. rewrite (skips_needs false _ _ S eq_refl) in F. cbn in F. inversion F as [|? i ? is' H]; subst. pose proof (scan_head sk e fs is' i S (H V)) as X. destruct (scan _ _ 0%Z). exact X.
Qed.
Lemma pend_neg t : i_sz (pend T t) = (-1)%Z.
Proof. reflexivity. Qed.
(** the codec of a type *)
Inductive val : nat -> info -> Prop :=
| val_all t is : vals (needs (prog T) t) is -> val t (fin T t is)
| val_var t is : varies T t -> sizs (needs (prog T) t) is -> val t (fin T t is)
with vals : list nat -> list info -> Prop :=
| vals_nil : vals [] []
| vals_cons u i us is : val u i -> vals us is -> vals (u :: us) (i :: is)
with sizs : list nat -> list info -> Prop :=
| sizs_nil : sizs [] []
| sizs_var u i us is : varies T u -> i_sz i = (-1)%Z -> sizs us is -> sizs (u :: us) (i :: is)
| sizs_val u i us is : val u i -> sizs us is -> sizs (u :: us) (i :: is).
Scheme val_ind3 := Minimality for val Sort Prop with vals_ind3 := Minimality for vals Sort Prop with sizs_ind3 := Minimality for sizs Sort Prop.
Definition neg (u : nat) (i : info) : Prop := varies T u -> i_sz i = (-1)%Z.
Lemma val_neg t i : val t i -> neg t i.
Proof.
  intro V. apply (val_ind3 neg (fun us is => Forall2 neg us is) (fun us is => Forall2 neg us is)); try exact V; clear t i V.
  - intros t is _ F N. now apply varies_fin.
  - intros t is _ _ F N. now apply varies_fin.
  - constructor.
  - intros. now constructor.
  - constructor.
  - intros u i us is V N _ F. constructor; [now intros _|exact F].
  - intros. now constructor.
Qed.
Lemma sizs_neg us is : sizs us is -> Forall2 neg us is.
Proof. induction 1 as [|u i us is V N S IH|u i us is V S IH]; constructor; trivial; [now intros _|now apply val_neg]. Qed.
Lemma vals_sizs us is : vals us is -> sizs us is.
Proof. induction 1 as [|u i us is V VS IH]; [constructor|now apply sizs_val]. Qed.
Lemma val_form t i : val t i -> exists is, i = fin T t is /\ sizs (needs (prog T) t) is.
Proof. intro V. destruct V as [t is V|t is N S]; exists is; (split; [reflexivity|]); trivial. now apply vals_sizs. Qed.
Lemma val_one t i : val t i -> forall i', val t i' -> i = i'.
Proof.
  intro V. apply (val_ind3 (fun t i => forall i', val t i' -> i = i') (fun us is => (forall is', vals us is' -> is = is') /\ forall is', sizs us is' -> map i_sz is = map i_sz is') (fun us is => forall is', sizs us is' -> map i_sz is = map i_sz is')); try exact V; clear t i V.
  - intros t is VS [H1 H2] i' V'. inversion V' as [t' is' V1|t' is' N S1]; subst; [f_equal; now apply H1|].
    apply fin_sizes; [now apply H2|]. rewrite (varies_fin t is' N (sizs_neg _ _ S1)). apply (varies_fin t is N). apply sizs_neg. now apply vals_sizs.
  - intros t is N S H i' V'. assert (Z : i_sz i' = (-1)%Z) by now apply (val_neg t). apply val_form in V'. destruct V' as (is' & -> & S').
    apply fin_sizes; [now apply H|]. rewrite Z. apply (varies_fin t is N). now apply sizs_neg.
  - split; intros is' H; inversion H; reflexivity.
  - intros u i us is V HV VS [H1 H2]. split.
    + intros is' X. inversion X as [|? i' ? is2 V' VS']; subst. f_equal; [now apply HV|now apply H1].
    + intros is' X. inversion X as [|? i' ? is2 N Z S|? i' ? is2 V' S]; subst; cbn; (f_equal; [|now apply H2]); [rewrite Z; now apply (val_neg u)|f_equal; now apply HV].
  - intros is' X. now inversion X.
  - intros u i us is N Z S H is' X. cbn. inversion X as [|? i' ? is2 N' Z' S'|? i' ? is2 V' S']; subst; cbn; (f_equal; [|now apply H]); [congruence|rewrite Z; symmetry; now apply (val_neg u)].
  - intros u i us is V HV S H is' X. cbn. inversion X as [|? i' ? is2 N' Z' S'|? i' ? is2 V' S']; subst; cbn; (f_equal; [|now apply H]); [rewrite Z'; now apply (val_neg u)|f_equal; now apply HV].
Qed.

(** ** the registry *)
Record VInv (s : st) (f : nat -> info) : Prop := mkVInv {
  vSz : forall u o, ws s u = Some o -> varies T u -> i_sz (f o) = (-1)%Z;
  vSzB : forall k t o, pcs s k = PBuild t o -> forall u v, wss s u = Some v -> varies T u -> i_sz (f v) = (-1)%Z;
  vWs : forall u o, ws s u = Some o -> tame T u -> val u (f o);
  vBld : forall k t o, pcs s k = PBuild t o -> forall u v, wss s u = Some v -> full s v = true -> tame T u -> val u (f v) }.
Lemma vinit : VInv s_init (fun _ => pend T 0).
Proof. split; cbn; discriminate. Qed.
Lemma fields_part b fs u tg : ~ In Fail (field_instrs b fs) -> In (tg, u) fs -> tg <> TgSkip -> In (Need u) (field_instrs b fs).
Proof.
  revert b. induction fs as [|[tg' t] fs IH]; intros b N F G; [destruct F|]. cbn [field_instrs] in *. destruct b; [destruct N; now left|].
  destruct F as [F|F].
  - injection F as -> ->. destruct tg; [congruence|..]; now left.
  - destruct tg'; [now apply IH|..]; (right; apply IH; trivial; intro X; apply N; now right).
Qed.
Lemma contains_part t u : ~ In Fail (prog T t) -> contains T t u -> part (prog T) t u.
Proof.
  intros NF C. unfold contains in C. unfold part, prog in *. destruct (T t); try contradiction; try (subst; now left). destruct C as (tg & F & N). now apply (fields_part false fs u tg).
Qed.
Lemma tame_part t u : tame T t -> contains T t u -> tame T u.
Proof. intros P C w W. apply P. apply within_trans with u; [|exact W]. apply within_part with t; [constructor|exact C]. Qed.
Lemma parts_within t u : parts (prog T) t u -> within T t u.
Proof.
  induction 1 as [t u P|t|t u w P1 IH1 P2 IH2]; [apply within_part with t; [constructor|now apply part_contains]|constructor|now apply within_trans with u].
Qed.
Lemma vstep t s f e : IInv (prog T) t s -> VInv s f -> VInv (snd (step (prog T) s e)) (fill info (pend T) (fin T) s f e).
Proof.
  intros I V. destruct I as [J1 J2]. destruct V as [V1 V2 V3 V4].
  assert (ONE : forall k u v, pcs s k = PBuild u v -> forall j, mid (pcs s j) -> j = k).
  { intros k u v E j M. apply (iLock _ _ _ J1) in M. assert (M' : mid (pcs s k)) by now rewrite E. apply (iLock _ _ _ J1) in M'. congruence. }
  assert (PC : forall s' c k, (forall j, j <> k -> pcs s' j = pcs s j) -> pcs s' k = c -> (forall u v, c <> PBuild u v) -> ws s' = ws s -> wss s' = wss s -> full s' = full s -> VInv s' f).
  { intros s' c k P1 P2 P3 P4 P5 P6. split; rewrite ?P4, ?P5, ?P6; trivial.
    - intros j u v E. destruct (Nat.eq_dec j k) as [->|N]; [rewrite P2 in E; now apply P3 in E|]. rewrite P1 in E by exact N. now apply (V2 j u v).
    - intros j u v E. destruct (Nat.eq_dec j k) as [->|N]; [rewrite P2 in E; now apply P3 in E|]. rewrite P1 in E by exact N. now apply (V4 j u v). }
  assert (PC' : forall k c lk, (forall u v, c <> PBuild u v) -> VInv (w_pc (w_lock s lk) k c) f).
  { intros k c lk C. apply (PC _ c k); fields; trivial; [intros j N; now rewrite upd_other|now rewrite upd_same]. }
  assert (ID : VInv s f) by now split.
  assert (WL : forall k c, w_pc s k c = w_pc (w_lock s (lock s)) k c) by reflexivity.
  destruct e as [k u|k]; cbn [step fill] in *.
  - destruct (pcs s k) eqn:E; try exact ID. fields. rewrite WL in *. apply PC'; discriminate.
  - destruct (pcs s k) as [|u|u|u|u|u v|u|u v| |] eqn:E; try exact ID.
    + destruct (ws s u); fields; rewrite WL in *; (apply PC'; discriminate).
    + destruct (lock s); [exact ID|]. fields. apply PC'; discriminate.
    + destruct (ws s u); fields; rewrite WL in *; (apply PC'; discriminate).
    + (* PCopy *) fields. pose proof (iOld _ _ _ J1) as OLD. assert (M : mid (pcs s k)) by now rewrite E. apply (iLock _ _ _ J1) in M.
      split; fields.
      * intros w o W VV. assert (o < nxt s) by now apply (OLD w). rewrite upd_other by lia. now apply (V1 w).
      * intros j x y X w o W VV. spl w u; [injection W as <-; rewrite upd_same; apply pend_neg|]. assert (o < nxt s) by now apply (OLD w). rewrite upd_other by lia. now apply (V1 w).
      * intros w o W VV. assert (o < nxt s) by now apply (OLD w). rewrite upd_other by lia. now apply (V3 w).
      * intros j x y X w o W F VV. spl w u; [injection W as <-; destruct (iNew _ _ _ J1 (nxt s) (le_n _)) as [N _]; congruence|]. assert (o < nxt s) by now apply (OLD w). rewrite upd_other by lia. now apply (V3 w).
    + (* PBuild *) pose proof (iBld _ _ _ J1 k u v E) as B. unfold step_build in *. destruct (stk s) as [|[[t1 o1] [|[t2|] p]] rest] eqn:K; fields.
      * (* done *) split; fields.
        -- intros w o W VV. now apply (V2 k u v E w).
        -- intros j x y X. spl j k; [discriminate|]. exfalso. assert (j = k) by (apply (ONE k u v E); now rewrite X). congruence.
        -- intros w o W VV. destruct (bAll _ _ _ _ B w o W) as [[F _]|X]; [now apply (V4 k u v E w)|]. rewrite K in X. destruct X.
        -- intros j x y X. spl j k; [discriminate|]. exfalso. assert (j = k) by (apply (ONE k u v E); now rewrite X). congruence.
      * (* the end of Fill *)
        assert (F1 : In (t1, o1, []) (stk s)) by (rewrite K; now left). destruct (bStk _ _ _ _ B _ _ _ F1) as (S1 & S2 & S3 & pre & S4 & S5). rewrite app_nil_r in S4. subst pre.
        pose proof (links_needs _ _ _ S5) as LN.
        assert (SZ : varies T t1 -> i_sz (fin T t1 (map f (refs s o1))) = (-1)%Z).
        { intro VV. apply varies_fin; [exact VV|]. unfold needs. clear - LN V2 E. induction LN as [|w o ws' os H F IH]; constructor; trivial. intro VV. now apply (V2 k u v E w). }
        assert (NO : forall w, ws s w <> Some o1) by (intros w W; destruct (iWs _ _ _ J1 w o1 W) as [X _]; congruence).
        split; fields.
        -- intros w o W VV. assert (o <> o1) by (intros ->; now apply (NO w)). rewrite upd_other by assumption. now apply (V1 w).
        -- intros j x y X w o W VV. spl o o1; [|now apply (V2 k u v E w)]. assert (w = t1) by now apply (bInj _ _ _ _ B w t1 o1). subst w. now apply SZ.
        -- intros w o W VV. assert (o <> o1) by (intros ->; now apply (NO w)). rewrite upd_other by assumption. now apply (V3 w).
        -- intros j x y X w o W F VV. assert (j = k) by (apply (ONE k u v E); now rewrite X). subst j. spl o o1; [|now apply (V4 k u v E w)].
           assert (w = t1) by now apply (bInj _ _ _ _ B w t1 o1). subst w.
           assert (ST : forall w o, part (prog T) t1 w -> wss s w = Some o -> full s o = true \/ within T w t1).
           { intros w o IN W0. destruct (bAll _ _ _ _ B w o W0) as [[F0 _]|X0]; [now left|right].
             apply in_map_iff in X0. destruct X0 as ([[w' o'] q] & X1 & X2). unfold fobj in X1. cbn in X1. subst o'. destruct (bStk _ _ _ _ B _ _ _ X2) as (Y & _).
             assert (w' = w) by now apply (bInj _ _ _ _ B w' w o). subst w'. rewrite K in X2. apply parts_within. exact (chain_parts (prog T) _ _ J2 _ X2). }
           assert (TP : forall w, part (prog T) t1 w -> tame T w) by (intros w P; apply (tame_part t1); [exact VV|now apply part_contains]).
           assert (CY : varies T t1 \/ forall w o, part (prog T) t1 w -> wss s w = Some o -> full s o = true).
           { assert (IN : forall w, In w (needs (prog T) t1) -> part (prog T) t1 w) by (intros w P; now apply needs_part).
             assert (Q : varies T t1 \/ Forall (fun o => full s o = true) (refs s o1)).
             { unfold needs in IN. clear - LN IN ST VV. induction LN as [|w o ws' os H F IH]; [right; constructor|]. destruct (ST w o (IN w (or_introl eq_refl)) H) as [FU|CY].
               - destruct IH as [IH|IH]; [intros w' X; apply IN; now right|now left|right; now constructor].
               - left. apply VV; [constructor|]. exists w. split; [apply part_contains, IN; now left|exact CY]. }
             destruct Q as [Q|Q]; [now left|right]. intros w o P W0. apply needs_part in P. unfold needs in P. clear - LN Q P W0. induction LN as [|w' o' ws' os H F IH]; [destruct P|]. inversion Q; subst. destruct P as [->|P]; [congruence|now apply IH]. }
           destruct CY as [VW|FU].
           ++ apply val_var; [exact VW|]. assert (IN : forall w, In w (needs (prog T) t1) -> part (prog T) t1 w) by (intros w P; now apply needs_part). unfold needs in *.
              clear - LN IN ST TP V2 V4 E. induction LN as [|w o ws' os H F IH]; [constructor|]. cbn [map].
              pose proof (IN w (or_introl eq_refl)) as P. specialize (IH (fun w' X => IN w' (or_intror X))). destruct (ST w o P H) as [FU|CY].
              ** apply sizs_val; [|exact IH]. apply (V4 k u v E w); trivial. now apply TP.
              ** assert (VW : varies T w).
                 { apply (TP w P w (within_self T w)). clear - CY P. apply part_contains in P. 
                   assert (Q : t1 = w \/ exists x, contains T w x /\ within T x t1).
                   { clear P. induction CY as [|x y C IHC D]; [now left|right]. destruct IHC as [->|(z & Z1 & Z2)]; [now exists y; split; [|constructor]|]. exists z. split; [exact Z1|]. now apply within_part with x. }
                   destruct Q as [->|(x & Q1 & Q2)]; [exists w; split; [exact P|constructor]|]. exists x. split; [exact Q1|]. now apply within_part with t1. }
                 apply sizs_var; [exact VW|now apply (V2 k u v E w)|exact IH].
           ++ apply val_all. assert (IN : forall w, In w (needs (prog T) t1) -> part (prog T) t1 w) by (intros w P; now apply needs_part). unfold needs in *.
              clear - LN IN FU TP V4 E. induction LN as [|w o ws' os H F IH]; [constructor|]. cbn [map]. pose proof (IN w (or_introl eq_refl)) as P. specialize (IH (fun w' X => IN w' (or_intror X))).
              constructor; [|exact IH]. apply (V4 k u v E w); trivial; [now apply (FU w)|now apply TP].
      * (* a part *)
        assert (F1 : In (t1, o1, Need t2 :: p) (stk s)) by (rewrite K; now left). destruct (bStk _ _ _ _ B _ _ _ F1) as (S1 & S2 & S3 & pre & S4 & S5).
        destruct (wss s t2) as [o2|] eqn:N2; fields.
        -- now split.
        -- assert (NEW : forall w o, wss s w = Some o -> o <> nxt s) by (intros w o W; pose proof (bOld _ _ _ _ B w o W); lia).
           split; fields.
           ++ intros w o W VV. assert (o < nxt s) by now apply (iOld _ _ _ J1 w). rewrite upd_other by lia. now apply (V1 w).
           ++ intros j x y X w o W VV. spl w t2; [injection W as <-; rewrite upd_same; apply pend_neg|]. rewrite upd_other by now apply (NEW w). now apply (V2 k u v E w).
           ++ intros w o W VV. assert (o < nxt s) by now apply (iOld _ _ _ J1 w). rewrite upd_other by lia. now apply (V3 w).
           ++ intros j x y X w o W F VV. spl w t2; [injection W as <-; destruct (iNew _ _ _ J1 (nxt s) (le_n _)) as [N _]; congruence|]. rewrite upd_other by now apply (NEW w). now apply (V4 k u v E w).
      * rewrite WL in *. apply PC'; discriminate.
    + fields. apply PC'; discriminate.
    + fields. apply PC'; discriminate.
Qed.
Lemma irun_inv es : forall t s f t' s' f', IInv (prog T) t s -> VInv s f -> irun (prog T) info (pend T) (fin T) (s, f) es = (t', (s', f')) -> IInv (prog T) (t ++ t') s' /\ VInv s' f'.
Proof.
  induction es as [|e es IH]; intros t s f t' s' f' I V E; cbn [irun istep] in E.
  - injection E as <- <- <-. now rewrite app_nil_r.
  - pose proof (istep_inv _ t s e I) as I1. pose proof (vstep t s f e I V) as V1. destruct (step (prog T) s e) as [o s1]. destruct (irun _ _ _ _ (s1, _) es) as [o2 [s2 f2]] eqn:R. injection E as <- <- <-. rewrite app_assoc. exact (IH _ s1 _ _ _ _ I1 V1 R).
Qed.
Lemma history_inv es : IInv (prog T) (fst (history T es)) (fst (snd (history T es))) /\ VInv (fst (snd (history T es))) (snd (snd (history T es))).
Proof. unfold history. destruct (istart _ _ _ _ es) as [t [s f]] eqn:E. exact (irun_inv es [] s_init _ t s f (iinit_inv _) vinit E). Qed.
Definition known (es : list ev) (t : nat) : Prop := exists o, ws (fst (snd (history T es))) t = Some o.
Lemma given_known es t : given T es t -> known es t.
Proof. intros (k & o & R). exists o. exact (iRet _ _ _ (jInv _ _ _ (proj1 (history_inv es))) k t o R). Qed.
Lemma links_in m p l i : Forall2 (link m) p l -> In i p -> exists o, link m i o.
Proof. induction 1 as [|x o p l H F IH]; intro I; [destruct I|]. destruct I as [->|I]; [now exists o|now apply IH]. Qed.
Lemma known_part es t u : known es t -> contains T t u -> known es u.
Proof.
  intros (o & W) C. pose proof (iWs _ _ _ (jInv _ _ _ (proj1 (history_inv es))) t o W) as R. destruct R as [_ R].
  assert (NF : ~ In Fail (prog T t)) by (intro F; now destruct (links_in _ _ _ _ R F)).
  destruct (links_in _ _ _ _ R (contains_part t u NF C)) as (o' & L). now exists o'.
Qed.
Lemma known_within es t u : known es t -> within T t u -> known es u.
Proof. intros K W. induction W as [|u w _ IH C]; [exact K|]. now apply (known_part es u). Qed.
Lemma after_val es t : known es t -> tame T t -> val t (after T es t).
Proof. intros (o & W) G. unfold after, table. rewrite W. now apply (vWs _ _ (proj2 (history_inv es))). Qed.
Lemma tame_within t u : tame T t -> within T t u -> tame T u.
Proof. intros G W x X. apply G. now apply within_trans with u. Qed.
Lemma codecs_same es es' t : tame T t -> given T es t -> given T es' t -> forall u, within T t u -> after T es u = after T es' u.
Proof.
  intros P G G' u W. pose proof (tame_within t u P W) as P'. apply (val_one u); (apply after_val; [apply (known_within _ t); [now apply given_known|exact W]|exact P']).
Qed.
Lemma found_agree g g' i : (forall t, holds t i -> tame T t) -> found T g i -> found T g' i -> vagree T g g' i.
Proof.
  intros P F F' t H u W. destruct (F t H) as (es & G & E). destruct (F' t H) as (es' & G' & E'). rewrite (E u W), (E' u W). now apply (codecs_same es es' t (P t H)).
Qed.
End Rec.
