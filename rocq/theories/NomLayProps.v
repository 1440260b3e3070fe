(** The properties of the bytes written for values of named types. *)
From Coq Require Import ZArith List Bool Arith Lia.
Import ListNotations.
From Verif Require Import Base PrimModel PrimSpec.
From Verif Require CodecModel CodecSpec.
From Verif Require Import RegModel FillModel NomModel NomSpec NomProofs NomRec NomLaySpec NomLay.
Open Scope Z_scope.

(** * C115: what is written stands for the value *)
(** Whatever codecs the history left: Write gives exactly the bytes that stand for the value. Types that contain themselves, types
    with their own methods and interfaces included; the exceptions are in [neat] and in the ranges of [says]. *)
Theorem C115_layout_partial : forall T g i b, found T g i -> neat T g i -> says T i b ->
  Write T g i = Ok b.
Proof. intros T g i b F N S. apply (proj1 (Write_says_all T g)); trivial. now apply found_codecs. Qed.
Print Assumptions C115_layout_partial.
Theorem C115_layout_tail_partial : forall T g i b, found T g i -> neat T g i -> says_tail T i b ->
  WriteTail T g i = Ok b.
Proof. intros T g i b F N S. apply WriteTail_says; trivial. now apply found_codecs. Qed.
Print Assumptions C115_layout_tail_partial.
(** so that what is written is the same after every history, of values that the writer can handle after each *)
Theorem C113_values_partial : forall T g g' i b, found T g i -> found T g' i -> neat T g i -> neat T g' i -> says T i b -> Write T g i = Write T g' i.
Proof. intros T g g' i b F F' N N' S. now rewrite (C115_layout_partial T g i b), (C115_layout_partial T g' i b). Qed.
Print Assumptions C113_values_partial.
(** The sizes the package keeps: right for types of constant size, none for types whose size varies from the first field on; and
    the layout of a type of constant size takes that many bytes. *)
Theorem C115_sizes_partial : forall T g i t u, found T g i -> holds t i -> within T t u ->
  (forall z, fixed T u z -> i_sz (g u) = z /\ forall a v b, means T a u v b -> zlen b = z) /\
  (varies T u -> i_sz (g u) = -1).
Proof.
  intros T g i t u F H W. assert (C : sizes T g u) by (intros w X; apply (found_codecs T g i F t H); now apply within_trans with u). split.
  - intros z Z. split; [now apply (codec_fixed T)|]. intros a v b. now apply fixed_bytes.
  - intro N. now apply (codec_varies T).
Qed.
Print Assumptions C115_sizes_partial.

(** ** the exceptions *)
(** type A struct { E []interface{} }: the elements are written without their counts, so that {"a", "bc"} and {"ab", "c"} are
    written alike, and neither as it should *)
Definition anys (t : nat) : shape := match t with 0 => SStruct [(TgAuto, 1)] | 1 => SSl 2 | 2 => SIface | _ => SStr end%nat.
Definition abc (a b : list Z) : dv := VDyn 0 (VSeq [VSeq [VDyn 3 (VStr a); VDyn 3 (VStr b)]]).
Definition aes : list ev := calls 20 0 0 ++ calls 20 1 3.
Lemma abc_given a b t : holds t (abc a b) -> given anys aes t.
Proof.
  intro H. assert (E : t = 0%nat \/ t = 3%nat).
  { unfold abc in H. repeat match goal with
    | H : holds _ (VDyn _ _) |- _ => inversion H; clear H; subst
    | H : holds _ (VSeq _) |- _ => inversion H; clear H; subst
    | H : holds _ (VStr _) |- _ => inversion H
    | H : In _ _ |- _ => cbn in H
    | H : _ \/ _ |- _ => destruct H as [<-|H]
    | H : False |- _ => destruct H
    end; tauto. }
  destruct E as [-> | ->]; [exists 0%nat|exists 1%nat]; eexists; vm_compute; tauto.
Qed.
Theorem C115_interface_elements_refuted : exists T g i i' b b', found T g i /\ found T g i' /\ says T i b /\ says T i' b' /\ b <> b' /\
  Write T g i = Write T g i' /\ Write T g i <> Ok b /\ Write T g i' <> Ok b'.
Proof.
  exists anys, (after anys aes), (abc [97] [98; 99]), (abc [97; 98] [99]), [2;0;0;0; 1;0;0;0;97; 2;0;0;0;98;99], [2;0;0;0; 2;0;0;0;97;98; 1;0;0;0;99].
  split; [intros t H; exists aes; split; [now apply abc_given in H|reflexivity]|].
  split; [intros t H; exists aes; split; [now apply abc_given in H|reflexivity]|].
  assert (S : forall a b, zlen a < 2 ^ 32 -> zlen b < 2 ^ 32 -> says anys (abc a b) (([2;0;0;0] ++ (le_enc 4 (zlen a) ++ a) ++ (le_enc 4 (zlen b) ++ b) ++ []) ++ [])).
  { intros a b A B. apply sa_value; [reflexivity|]. apply me_struct with [(TgAuto, 1)]%nat; [reflexivity|]. apply pa_auto; [|constructor].
    apply (me_sl anys true 1 2%nat); [reflexivity|cbn; lia|]. constructor; [|constructor; [|constructor]]; (apply me_iface; [reflexivity|]; now apply (me_str anys true 3)). }
  split; [now apply (S [97] [98; 99])|]. split; [now apply (S [97; 98] [99])|]. split; [discriminate|]. split; [reflexivity|]. split; vm_compute; discriminate.
Qed.
Print Assumptions C115_interface_elements_refuted.
(** a type with IWrite on its pointer, given by value: the layout is that of its IWrite, the code panics *)
Definition onptr : nat -> shape := fun _ => SUser (mkUser KOther true (fun _ => Ok [1]) None None).
Theorem C115_pointer_receiver_refuted : exists T g i b, found T g i /\ says T i b /\ Write T g i = Panic.
Proof.
  exists onptr, (after onptr (calls 20 0 0)), (VDyn 0 VNil), [1]. split.
  - intros t H. exists (calls 20 0 0). split; [|reflexivity]. inversion H; subst; [|match goal with H : holds _ VNil |- _ => inversion H end]. exists 0%nat. eexists. vm_compute. tauto.
  - split; [|vm_compute; reflexivity]. now apply sa_user with (mkUser KOther true (fun _ => Ok [1]) None None).
Qed.
Print Assumptions C115_pointer_receiver_refuted.
(** size() of a pointer type with IWrite: a field struct { P *U `iproto:"size(i8)"` } panics unless nil *)
Definition ptruser : user := mkUser KPtr false (fun v => match v with VNil => Ok [] | _ => Ok [1] end) None None.
Definition sized (t : nat) : shape := match t with 0 => SStruct [(TgSize CodecModel.P8, 1%nat)] | _ => SUser ptruser end%nat.
Theorem C115_size_of_pointer_refuted : exists T g i b, found T g i /\ says T i b /\ Write T g i = Panic.
Proof.
  exists sized, (after sized (calls 20 0 0)), (VDyn 0 (VSeq [VRef (VSeq [])])), [1; 1]. split.
  - intros t H. exists (calls 20 0 0). split; [|reflexivity]. assert (t = 0%nat) as ->; [|exists 0%nat; eexists; vm_compute; tauto].
    repeat match goal with
    | H : holds _ (VDyn _ _) |- _ => inversion H; clear H; subst
    | H : holds _ (VSeq _) |- _ => inversion H; clear H; subst
    | H : holds _ (VRef _) |- _ => inversion H; clear H; subst
    | H : In _ _ |- _ => cbn in H
    | H : _ \/ _ |- _ => destruct H as [<-|H]
    | H : False |- _ => destruct H
    end; reflexivity.
  - split; [|vm_compute; reflexivity]. apply sa_value; [reflexivity|]. apply me_struct with [(TgSize CodecModel.P8, 1%nat)]; [reflexivity|].
    apply (pa_size sized CodecModel.P8 1 [] (VRef (VSeq [])) [] [1] []); [|cbn; lia|constructor]. now apply me_user with ptruser.
Qed.
Print Assumptions C115_size_of_pointer_refuted.

(** ** a case that meets the hypotheses *)
(** type T struct { Kids []T; A int8; B interface{} `size(i32)`; C *[2]int8 `cnt(i16)`; U U } where U has IWrite, ISize, ICount *)
Definition twice : user := mkUser KOther false (fun v => match v with VNum x => Ok [x; x] | _ => Panic end) (Some (fun _ => 2)) (Some (fun _ => 1)).
Definition demo (t : nat) : shape :=
  match t with
  | 0 => SStruct [(TgAuto, 1); (TgAuto, 3); (TgSize P32, 4); (TgCnt CodecModel.P16, 5); (TgAuto, 7)]
  | 1 => SSl 0
  | 4 => SIface
  | 5 => SPtr 6
  | 6 => SArr 2 3
  | 7 => SUser twice
  | 8 => SStr
  | _ => SNum I8
  end%nat.
Definition leaf : dv := VSeq [VSeq []; VNum (-1); VNil; VRef (VSeq [VNum 1; VNum 2]); VNum 9].
Definition root : dv := VDyn 0 (VSeq [VSeq [leaf]; VNum 5; VDyn 8 (VStr [97; 98]); VNil; VNum 4]).
Definition leafb : list Z := [0;0;0;0; 255; 0;0;0;0; 2;0; 1;2; 1;0;0;0; 9;9].
Definition rootb : list Z := [1;0;0;0] ++ leafb ++ [5; 2;0;0;0; 97;98; 0;0; 1;0;0;0; 4;4].
Definition des : list ev := calls 40 0 1 ++ calls 20 1 8 ++ calls 20 2 0.
Lemma demo_held t : holds t root -> t = 0%nat \/ t = 8%nat.
Proof.
  unfold root, leaf. intro H. repeat match goal with
    | H : holds _ (VDyn _ _) |- _ => inversion H; clear H; subst
    | H : holds _ (VSeq _) |- _ => inversion H; clear H; subst
    | H : holds _ (VRef _) |- _ => inversion H; clear H; subst
    | H : holds _ (VNum _) |- _ => inversion H
    | H : holds _ (VStr _) |- _ => inversion H
    | H : holds _ VNil |- _ => inversion H
    | H : In _ _ |- _ => cbn in H
    | H : _ \/ _ |- _ => destruct H as [<-|H]
    | H : False |- _ => destruct H
    end; tauto.
Qed.
Lemma demo_found : found demo (after demo des) root.
Proof.
  intros t H. exists des. split; [|reflexivity]. destruct (demo_held t H) as [-> | ->]; [exists 2%nat|exists 1%nat]; eexists; vm_compute; tauto.
Qed.
Lemma twice_user t a v : demo t = SUser twice -> v <> VNil -> a = true -> forall x, v = VNum x -> means demo a t v ([1;0;0;0] ++ [x; x]).
Proof. intros E N -> x ->. apply (me_counted demo t twice (VNum x) 1); trivial; [discriminate| |lia]. now apply (am_user demo t twice (fun _ => 1)); [|left| |]. Qed.
Lemma leaf_means : means demo true 0 leaf leafb.
Proof.
  apply me_struct with [(TgAuto, 1); (TgAuto, 3); (TgSize P32, 4); (TgCnt CodecModel.P16, 5); (TgAuto, 7)]%nat; [reflexivity|].
  apply (pa_auto demo 1 _ (VSeq []) _ [0;0;0;0] (255 :: skipn 5 leafb)); [apply (me_sl demo true 1 0%nat [] []); [reflexivity|cbn; lia|constructor]|].
  apply (pa_auto demo 3 _ (VNum (-1)) _ [255] (skipn 5 leafb)); [apply (me_num demo true 3%nat I8 (-1)); [reflexivity|cbn; lia]|].
  apply (pa_size demo P32 4 _ VNil _ [] (skipn 9 leafb)); [now apply me_niliface|cbn; lia|].
  apply (pa_cnt demo CodecModel.P16 5 _ (VRef (VSeq [VNum 1; VNum 2])) _ 2 [1;2] (skipn 13 leafb)).
  - apply me_ptr with 6%nat; [reflexivity|]. apply me_arr with 2%nat 3%nat; [reflexivity|reflexivity|].
    apply (it_cons demo 3 (VNum 1) _ [1] [2]); [apply (me_num demo true 3%nat I8 1); [reflexivity|cbn; lia]|]. apply (it_cons demo 3 (VNum 2) _ [2] []); [apply (me_num demo true 3%nat I8 2); [reflexivity|cbn; lia]|constructor].
  - apply am_ptr with 6%nat; [reflexivity|]. now apply (am_arr demo 6 2 3).
  - cbn. lia.
  - apply (pa_auto demo 7 [] (VNum 9) [] [1;0;0;0;9;9] []); [|constructor]. now apply (twice_user 7 true (VNum 9)) with (x := 9).
Qed.
Example C115_says : says demo root rootb.
Proof.
  apply sa_value; [reflexivity|].
  apply me_struct with [(TgAuto, 1); (TgAuto, 3); (TgSize P32, 4); (TgCnt CodecModel.P16, 5); (TgAuto, 7)]%nat; [reflexivity|].
  change rootb with (([1;0;0;0] ++ leafb ++ []) ++ skipn 23 rootb). apply pa_auto.
  - apply (me_sl demo true 1 0%nat [leaf] (leafb ++ [])); [reflexivity|cbn; lia|]. constructor; [exact leaf_means|constructor].
  - apply (pa_auto demo 3 _ (VNum 5) _ [5] (skipn 24 rootb)); [apply (me_num demo true 3%nat I8 5); [reflexivity|cbn; lia]|].
    apply (pa_size demo P32 4 _ (VDyn 8 (VStr [97; 98])) _ [97; 98] (skipn 30 rootb)); [apply me_iface; [reflexivity|]; apply (me_str demo false 8 [97; 98]); [reflexivity|cbn; lia]|cbn; lia|].
    apply (pa_cnt demo CodecModel.P16 5 _ VNil _ 0 [] (skipn 32 rootb)); [now apply me_nil with 6%nat|now apply am_nilptr with 6%nat|cbn; lia|].
    apply (pa_auto demo 7 [] (VNum 4) [] [1;0;0;0;4;4] []); [|constructor]. now apply (twice_user 7 true (VNum 4)) with (x := 4).
Qed.
Definition dsz (t : nat) : Z := i_sz (after demo des t).
Lemma demo_sizes : dsz 0 = -1 /\ dsz 1 = -1 /\ dsz 3 = 1 /\ dsz 4 = -1 /\ dsz 5 = -1 /\ dsz 6 = 2 /\ dsz 7 = -1 /\ dsz 8 = -1.
Proof. vm_compute. tauto. Qed.
Example C115_neat : neat demo (after demo des) root.
Proof.
  pose proof demo_sizes as S. unfold dsz in S. revert S. generalize (after demo des) as g. intros g (S0 & S1 & S3 & S4 & S5 & S6 & S7 & S8). unfold root, leaf.
  cbn [neat tidy demo sizable countable all twice u_ptr u_count u_kind is_iface]. unfold size_kept. rewrite ?S0, ?S1, ?S3, ?S4, ?S5, ?S6, ?S7, ?S8.
  repeat match goal with |- _ /\ _ => split end; try exact Logic.I; try discriminate; try reflexivity; try (left; reflexivity); try (intros _; split; [reflexivity|exact Logic.I]).
Qed.
Example C115_met : Write demo (after demo des) root = Ok rootb.
Proof.
  apply C115_layout_partial; [exact demo_found|exact C115_neat|exact C115_says].
Qed.
Example C115_computed : Write demo (after demo des) root = Ok rootb.
Proof. vm_compute. reflexivity. Qed.
(** type N struct { A int16; Kids []N } is one of the types whose codecs depend on the history (C114); what is written does not *)
Definition nodes (t : nat) : shape := match t with 0 => SStruct [(TgAuto, 2); (TgAuto, 1)] | 1 => SSl 0 | _ => SNum I16 end%nat.
Definition node : dv := VDyn 0 (VSeq [VNum 258; VSeq [VSeq [VNum (-1); VSeq []]]]).
Definition nodeb : list Z := [2;1; 1;0;0;0; 255;255; 0;0;0;0].
Lemma node_met es : given nodes es 0 -> (i_sz (after nodes es 2) = 2 /\ i_sz (after nodes es 1) = -1) -> Write nodes (after nodes es) node = Ok nodeb.
Proof.
  intros G [Z1 Z2]. apply C115_layout_partial.
  - intros t H. exists es. split; [|reflexivity]. assert (t = 0%nat) as ->; [|exact G]. unfold node in H.
    repeat match goal with
    | H : holds _ (VDyn _ _) |- _ => inversion H; clear H; subst
    | H : holds _ (VSeq _) |- _ => inversion H; clear H; subst
    | H : holds _ (VNum _) |- _ => inversion H
    | H : In _ _ |- _ => cbn in H
    | H : _ \/ _ |- _ => destruct H as [<-|H]
    | H : False |- _ => destruct H
    end; reflexivity.
  - revert Z1 Z2. generalize (after nodes es) as g. intros g Z1 Z2. unfold node. cbn [neat tidy nodes all is_iface]. rewrite Z1, Z2.
    repeat match goal with |- _ /\ _ => split end; try exact Logic.I; try discriminate; reflexivity.
  - apply sa_value; [reflexivity|]. apply me_struct with [(TgAuto, 2); (TgAuto, 1)]%nat; [reflexivity|].
    apply (pa_auto nodes 2 _ (VNum 258) _ [2;1] (skipn 2 nodeb)); [apply (me_num nodes true 2%nat I16 258); [reflexivity|cbn; lia]|].
    apply (pa_auto nodes 1 [] (VSeq [VSeq [VNum (-1); VSeq []]]) [] (skipn 2 nodeb) []); [|constructor].
    apply (me_sl nodes true 1 0%nat [VSeq [VNum (-1); VSeq []]] ([255;255; 0;0;0;0] ++ [])); [reflexivity|cbn; lia|]. constructor; [|constructor].
    apply me_struct with [(TgAuto, 2); (TgAuto, 1)]%nat; [reflexivity|].
    apply (pa_auto nodes 2 _ (VNum (-1)) _ [255;255] [0;0;0;0]); [apply (me_num nodes true 2%nat I16 (-1)); [reflexivity|cbn; lia]|].
    apply (pa_auto nodes 1 [] (VSeq []) [] [0;0;0;0] []); [|constructor]. apply (me_sl nodes true 1 0%nat [] []); [reflexivity|cbn; lia|constructor].
Qed.
Example C115_any_history : let first := calls 20 0 0 in let second := calls 20 0 1 ++ calls 20 1 0 in
  after nodes first 1 <> after nodes second 1 /\ Write nodes (after nodes first) node = Ok nodeb /\ Write nodes (after nodes second) node = Ok nodeb.
Proof.
  cbv zeta. split; [vm_compute; discriminate|]. split; apply node_met; try (split; vm_compute; reflexivity); [exists 0%nat|exists 1%nat]; eexists; vm_compute; tauto.
Qed.
