(** C137: the functions that a server offers, called from a client. C138: a Reader of a body. *)
From Coq Require Import ZArith List Bool Arith Lia.
Import ListNotations.
From Verif Require Import Base PrimModel PrimSpec CodecModel CodecSpec CodecProofs CodecRead CodecProps CallModel CallSpec.
From Verif Require WireModel WireSpec PairModel PairSpec PairProps TripSpec TripProps HolderModel HolderSpec HolderProps ServerModel ServerSpec ServerProps.
Open Scope Z_scope.

(** ** one call *)
Lemma body_read t v old b : good t = true -> no_skip t = true -> fits t v -> shaped t old -> body_of (DVal t v) = Ok b -> Body_Read t b old = Ok (v, None).
Proof.
  intros G N F S E. destruct (C18_read_inverts_write_partial t v old [] [] G F S) as (b' & v' & al' & W & R & _ & Q). cbn [body_of] in E. rewrite E in W. injection W as <-.
  rewrite app_nil_r in R. unfold Body_Read. rewrite R. cbn [bind]. now rewrite (Q N).
Qed.
Lemma wire_code_ok m c : ServerModel.wire_code m c = WireModel.RC_OK -> c = WireModel.RC_OK.
Proof.
  unfold ServerModel.wire_code. destruct (ServerModel.kind c =? ServerModel.RcInternal); [|easy]. cbv zeta. match goal with |- (if negb (?x =? 0) then _ else _) = _ -> _ => destruct (Z.eqb_spec x 0) as [_|N] end; cbn [negb].
  - intro H. exfalso. apply Z.lor_eq_0_iff in H. destruct H as [_ H]. discriminate H.
  - intro H. exfalso. now apply N.
Qed.
Section Call.
Variables T U : ty.
Variable h : val T -> val U.
Variable arg : HolderModel.rid -> val T.
Hypothesis GT : good T = true.
Hypothesis GU : good U = true.
Hypothesis NT : no_skip T = true.
Hypothesis NU : no_skip U = true.
Hypothesis FT : forall r, fits T (arg r).
Hypothesis FU : forall v, fits T v -> fits U (h v).

Lemma applied_arg r q b old : body_of (DVal T (arg r)) = Ok q -> applied h q b -> shaped U old -> Body_Read U b old = Ok (h (arg r), None).
Proof.
  intros E (v & R & W) S. rewrite (body_read T (arg r) (zero T) q GT NT (FT r) (proj1 zero_shaped T) E) in R. injection R as <-. apply body_read; auto.
Qed.
Lemma one_read rc m msg body dial csc ssc es t op : PairModel.run rc msg body dial (PairModel.p_init dial m csc ssc) es = (t, op) ->
  PairSpec.in_sync rc dial es -> PairSpec.proper_requests msg body -> PairSpec.proper_map m -> PairSpec.proper_answers es -> HolderSpec.timely (PairSpec.client t) ->
  (forall r, body_of (DVal T (arg r)) = Ok (body r)) -> offers h t -> told rc t ->
  forall r b, In (r, HolderModel.Answer WireModel.RC_OK b) (PairSpec.dones t) -> forall old, shaped U old -> Body_Read U b old = Ok (h (arg r), None).
Proof.
  intros E S HR HM HA HT HB HO HW r b I old SO.
  destruct (PairProps.C118_answers_come_from_the_handler_partial _ _ _ _ _ _ _ _ _ _ E S HR HM HA HT r _ b I) as (k & id & c & _ & RD & CM & CS).
  assert (C0 : c = WireModel.RC_OK).
  { destruct HW as [-> |HW]; [|now apply (HW k c b)]. cbn in CS. symmetry in CS. now apply wire_code_ok in CS. }
  subst c. apply (applied_arg r (body r)); auto. exact (HO k _ b RD CM).
Qed.
End Call.

(** ** C137. A client and a server of this library; the server offers the function h. The bodies of the client's requests are
    what Call makes of the arguments. Then every answer without an error, read into a variable of the result's type, is the
    function of the argument of that very request. This is so for all types that the codec is right for (C18), all
    functions, all schedules of both ends, all fragmentations and all failures of the sockets. *)
Theorem C137_remote_function_partial : forall (T U : ty) (h : val T -> val U) (arg : HolderModel.rid -> val T) rc m msg body dial csc ssc es t op,
  good T = true -> good U = true -> no_skip T = true -> no_skip U = true -> (forall r, fits T (arg r)) -> (forall v, fits T v -> fits U (h v)) ->
  (forall r, body_of (DVal T (arg r)) = Ok (body r)) ->
  PairModel.run rc msg body dial (PairModel.p_init dial m csc ssc) es = (t, op) ->
  PairSpec.in_sync rc dial es -> PairSpec.proper_requests msg body -> PairSpec.proper_map m -> PairSpec.proper_answers es -> HolderSpec.timely (PairSpec.client t) ->
  offers h t -> told rc t ->
  forall r b, In (r, HolderModel.Answer WireModel.RC_OK b) (PairSpec.dones t) -> forall old, shaped U old -> Body_Read U b old = Ok (h (arg r), None).
Proof. intros. eapply one_read; eassumption. Qed.
Print Assumptions C137_remote_function_partial.

(** At rest, with both connections up, every call has returned unless a handler still has it: with the function of its
    argument; or the handler reported an error; or the call completed in another way (timeout, cancellation) before. *)
Theorem C137_calls_return_partial : forall (T U : ty) (h : val T -> val U) (arg : HolderModel.rid -> val T) rc m msg body dial csc ssc es t p,
  good T = true -> good U = true -> no_skip T = true -> no_skip U = true -> (forall r, fits T (arg r)) -> (forall v, fits T v -> fits U (h v)) ->
  (forall r, body_of (DVal T (arg r)) = Ok (body r)) ->
  PairModel.run rc msg body dial (PairModel.p_init dial m csc ssc) es = (t, Some p) ->
  PairSpec.in_sync rc dial es -> PairSpec.proper_requests msg body -> PairSpec.proper_map m -> PairSpec.proper_answers es -> HolderSpec.timely (PairSpec.client t) ->
  offers h t -> told rc t ->
  TripSpec.quiet rc msg body dial p -> ServerSpec.at_most_128 (PairSpec.server t) -> ~ In ServerModel.OClosed (PairSpec.server t) -> ServerModel.rp (PairModel.srv p) = ServerModel.RIdle ->
  PairModel.ph p = PairModel.Running -> PairModel.cok p = true -> HolderModel.open (PairModel.cli p) = true ->
  forall k id r, nth_error (PairSpec.sends t) k = Some (id, r) -> TripSpec.with_handler t k \/
    exists x, In (r, x) (PairSpec.dones t) /\
      match x with
      | HolderModel.Answer code b => (code = WireModel.RC_OK /\ forall old, shaped U old -> Body_Read U b old = Ok (h (arg r), None)) \/
                                     exists c, c <> WireModel.RC_OK /\ In (k, c, b) (PairSpec.comps t)
      | _ => True
      end.
Proof.
  intros T U h arg rc m msg body dial csc ssc es t p GT GU NT NU FT FU HB E S HR HM HA HT HO HW Q A NC RI PH K OP k id r N.
  destruct (TripProps.C119_round_trip_partial _ _ _ _ _ _ _ _ _ _ E S HR HM HA HT Q A NC RI PH K OP) as [_ ALL].
  destruct (ALL k id r N) as [W|(c & b & x & CM & D & X)]; [now left|right]. exists x. split; [exact D|]. destruct x as [code b'| | |]; try exact Logic.I.
  destruct (X code b' eq_refl) as [-> ->]. destruct (Z.eq_dec c WireModel.RC_OK) as [-> |NE]; [left|right; exists c; now split].
  assert (C0 : PairSpec.code_seen rc m WireModel.RC_OK = WireModel.RC_OK) by (destruct rc; reflexivity). split; [exact C0|]. rewrite C0 in D.
  now apply (one_read T U h arg GT GU NT NU FT FU _ _ _ _ _ _ _ _ _ _ E S HR HM HA HT HB HO HW).
Qed.
Print Assumptions C137_calls_return_partial.

(** ** an example, and what happens without return codes *)
Definition ex_T := TStruct (FCons TgAuto (TNum U32) (FCons TgAuto TStr FNil)).
Definition ex_U := TNum U64.
Definition ex_h (v : val ex_T) : val ex_U := let '(a, (s, _)) := v in a + zlen s.
Definition ex_arg (r : nat) : val ex_T := match r with 0%nat => (7, ([97; 98], tt)) | 1%nat => (100, ([], tt)) | _ => (5, ([120], tt)) end.
Definition ex_body (r : nat) : list Z := match body_of (DVal ex_T (ex_arg r)) with Ok b => b | _ => [] end.
Definition ex_answers := [PairModel.Server (ServerModel.Complete 1%nat 0 (le_enc 8 100)); PairModel.Server (ServerModel.Complete 0%nat 0 (le_enc 8 9)); PairModel.Server (ServerModel.Complete 2%nat 0xfc02 []);
  PairModel.Server (ServerModel.Responder 0); PairModel.Server (ServerModel.Responder 0); PairModel.Server (ServerModel.Responder 0)] ++ PairProps.W 20.
Definition ex_run := PairProps.send 0 ++ PairProps.send 1 ++ PairProps.send 2 ++ [PairModel.CFlush] ++ PairProps.rdreq ++ PairProps.rdreq ++ PairProps.rdreq ++ ex_answers ++ PairProps.reading.
Lemma ex_fits_T r : fits ex_T (ex_arg r).
Proof. destruct r as [|[|r]]; cbn; repeat split; try lia; try (repeat constructor; lia); reflexivity. Qed.
Lemma ex_fits_U v : fits ex_T v -> fits ex_U (ex_h v).
Proof. destruct v as [a [s []]]. cbn [ex_h fits ex_T ex_U fits_flds]. intros (A & (_ & S) & _). unfold kind_ok in *. cbn in *. unfold zlen in *. lia. Qed.
Lemma ex_bodies r : body_of (DVal ex_T (ex_arg r)) = Ok (ex_body r).
Proof. destruct r as [|[|r]]; reflexivity. Qed.
Lemma ex_proper : PairSpec.proper_requests (fun _ => 3) ex_body.
Proof. intro r. unfold u32_ok, WireModel.PING. destruct r as [|[|r]]; vm_compute; intuition congruence. Qed.
(** the boolean form of [offers] for this function *)
Definition offersb (t : list PairModel.obs) : bool :=
  forallb (fun q => forallb (fun c => negb (Nat.eqb (fst q) (fst (fst c))) || negb (snd (fst c) =? 0) ||
    match Body_Read ex_T (WireModel.q_body (snd q)) (zero ex_T) with
    | Ok (v, None) => match body_of (DVal ex_U (ex_h v)) with Ok b => if list_eq_dec Z.eq_dec b (snd c) then true else false | _ => false end
    | _ => false
    end) (PairSpec.comps t)) (PairSpec.reads t).
Lemma offersb_ok t : offersb t = true -> offers ex_h t.
Proof.
  unfold offersb. rewrite forallb_forall. intros H k q b R C. specialize (H _ R). rewrite forallb_forall in H. specialize (H _ C). cbn [fst snd] in H. rewrite Nat.eqb_refl in H. cbn [negb orb WireModel.RC_OK Z.eqb] in H.
  destruct (Body_Read ex_T (WireModel.q_body q) (zero ex_T)) as [[v [e|]]| |] eqn:B; try discriminate. exists v. split; [exact B|]. destruct (body_of (DVal ex_U (ex_h v))) as [b'| |]; try discriminate.
  destruct (list_eq_dec Z.eq_dec b' b) as [-> |]; [reflexivity|discriminate].
Qed.
Example C137_ex_class : good ex_T = true /\ good ex_U = true /\ no_skip ex_T = true /\ no_skip ex_U = true. Proof. now repeat split. Qed.
(** two calls that succeed and one whose handler fails *)
Example C137_ex : exists t p, PairModel.run WireModel.RC4 (fun _ => 3) ex_body false (PairModel.p_init false None [] []) ex_run = (t, Some p) /\
  PairSpec.in_sync WireModel.RC4 false ex_run /\ PairSpec.proper_answers ex_run /\ HolderSpec.timely (PairSpec.client t) /\ offers ex_h t /\ told WireModel.RC4 t /\
  ServerSpec.at_most_128 (PairSpec.server t) /\ ~ In ServerModel.OClosed (PairSpec.server t) /\ PairModel.ph p = PairModel.Running /\ PairModel.cok p = true /\ HolderModel.open (PairModel.cli p) = true /\
  PairSpec.dones t = [(1%nat, HolderModel.Answer 0 (le_enc 8 100)); (0%nat, HolderModel.Answer 0 (le_enc 8 9)); (2%nat, HolderModel.Answer 0xfc02 [])] /\
  Body_Read ex_U (le_enc 8 9) 0 = Ok (ex_h (ex_arg 0), None).
Proof.
  do 2 eexists. split; [vm_compute; reflexivity|]. split; [right; repeat split; cbn; intuition discriminate|]. split; [PairProps.answers_ok|]. split; [apply HolderProps.politeb_all; vm_compute; reflexivity|].
  split; [apply offersb_ok; vm_compute; reflexivity|]. split; [now left|]. split; [apply ServerProps.few_ok; cbn; lia|]. split; [cbn; intuition discriminate|]. now repeat split.
Qed.
(** the next number modulo 256, called three times: two calls have returned, the third is still with its handler *)
Definition nx_h (v : val (TNum U8)) : val (TNum U8) := (v + 1) mod 256.
Definition nx_arg (r : nat) : val (TNum U8) := match r with 0%nat => 7 | 1%nat => 255 | _ => 1 end.
Definition nx_run := PairProps.send 0 ++ PairProps.send 1 ++ PairProps.send 2 ++ [PairModel.CFlush] ++ PairProps.rdreq ++ PairProps.rdreq ++ PairProps.rdreq ++
  [PairModel.Server (ServerModel.Complete 1%nat 0 [0]); PairModel.Server (ServerModel.Complete 0%nat 0 [8]); PairModel.Server (ServerModel.Responder 0); PairModel.Server (ServerModel.Responder 0)] ++ PairProps.W 12 ++ PairProps.reading ++ [PairModel.CFlush].
Example C137_ex_rest : exists t p, PairModel.run WireModel.RC4 (fun _ => 3) (fun r => [nx_arg r]) false (PairModel.p_init false None [] []) nx_run = (t, Some p) /\
  (forall r, fits (TNum U8) (nx_arg r)) /\ (forall v, fits (TNum U8) v -> fits (TNum U8) (nx_h v)) /\ (forall r, body_of (DVal (TNum U8) (nx_arg r)) = Ok [nx_arg r]) /\
  PairSpec.in_sync WireModel.RC4 false nx_run /\ PairSpec.proper_requests (fun _ => 3) (fun r => [nx_arg r]) /\ PairSpec.proper_answers nx_run /\ HolderSpec.timely (PairSpec.client t) /\ offers nx_h t /\ told WireModel.RC4 t /\
  TripSpec.quiet WireModel.RC4 (fun _ => 3) (fun r => [nx_arg r]) false p /\ ServerSpec.at_most_128 (PairSpec.server t) /\ ~ In ServerModel.OClosed (PairSpec.server t) /\ ServerModel.rp (PairModel.srv p) = ServerModel.RIdle /\
  PairModel.ph p = PairModel.Running /\ PairModel.cok p = true /\ HolderModel.open (PairModel.cli p) = true /\
  PairSpec.dones t = [(1%nat, HolderModel.Answer 0 [0]); (0%nat, HolderModel.Answer 0 [8])] /\ TripSpec.with_handler t 2.
Proof.
  do 2 eexists. split; [vm_compute; reflexivity|]. split; [intros [|[|r]]; cbn; lia|]. split; [intros v _; cbn; apply Z.mod_pos_bound; lia|]. split; [intros [|[|r]]; reflexivity|].
  split; [right; repeat split; cbn; intuition discriminate|]. split; [intro r; unfold u32_ok, WireModel.PING, zlen; cbn; lia|]. split; [PairProps.answers_ok|]. split; [apply HolderProps.politeb_all; vm_compute; reflexivity|].
  split.
  { intros k q b R C. cbn in R, C. destruct C as [C|[C|[]]]; injection C as <- <-; destruct R as [R|[R|[R|[]]]]; try discriminate R; injection R as <-; eexists; split; reflexivity. }
  split; [now left|]. split.
  { intros e M. destruct e as [|cuts|e| | |cuts|e|cuts]; try contradiction.
    - destruct e; try contradiction. reflexivity.
    - reflexivity.
    - apply TripProps.no_answer; [discriminate|reflexivity].
    - destruct e as [?|?| |? ? ?| | | | |n|]; try contradiction; try reflexivity. destruct n; reflexivity.
    - apply TripProps.no_request; reflexivity. }
  split; [apply ServerProps.few_ok; cbn; lia|]. split; [cbn; intuition discriminate|]. do 4 (split; [reflexivity|]). split; [reflexivity|]. split; cbn; intuition discriminate.
Qed.
(** Without return codes on the wire the client does not learn that a handler has failed: the third call completes
    successfully, with a body that is no value of the result's type. *)
Theorem C137_no_codes_refuted : exists t p, PairModel.run WireModel.RC0 (fun _ => 3) ex_body false (PairModel.p_init false None [] []) ex_run = (t, Some p) /\
  PairSpec.in_sync WireModel.RC0 false ex_run /\ PairSpec.proper_requests (fun _ => 3) ex_body /\ PairSpec.proper_answers ex_run /\ HolderSpec.timely (PairSpec.client t) /\ offers ex_h t /\
  In (2%nat, HolderModel.Answer WireModel.RC_OK []) (PairSpec.dones t) /\ ex_h (ex_arg 2) = 6 /\ Body_Read ex_U [] 0 = Ok (0, Some (EShort)).
Proof.
  do 2 eexists. split; [vm_compute; reflexivity|]. split; [now left|]. split; [exact ex_proper|]. split; [PairProps.answers_ok|]. split; [apply HolderProps.politeb_all; vm_compute; reflexivity|].
  split; [apply offersb_ok; vm_compute; reflexivity|]. split; [vm_compute; intuition|]. now split.
Qed.
Print Assumptions C137_no_codes_refuted.

(** ** C138. Reader gives a Reader of the body *)
Theorem C138_reader : forall t v old b, good t = true -> no_skip t = true -> fits t v -> shaped t old -> body_of (DVal t v) = Ok b ->
  exists al, Read t old (mkSt (Body_Reader b) []) = Ok (v, st0 [] al).
Proof.
  intros t v old b G N F S E. destruct (C18_read_inverts_write_partial t v old [] [] G F S) as (b' & v' & al' & W & R & _ & Q). cbn [body_of] in E. rewrite E in W. injection W as <-.
  rewrite app_nil_r, (Q N) in R. now exists al'.
Qed.
Print Assumptions C138_reader.
Lemma bytes_layout b : bytes_ok b -> flat_map (layout U8) b = b /\ Forall (kind_ok U8) b.
Proof. intro H. split; [now apply bytes_u8|exact H]. Qed.
Lemma self_read b : bytes_ok b -> dec Fixed (TSl (TNum U8)) b (st0 b []) = Ok (b, st0 [] []).
Proof.
  intro H. destruct (bytes_layout b H) as [L K]. cbn [dec]. pose proof (bulk_ok U8 b b [] [] K eq_refl) as B. now rewrite L, app_nil_r in B.
Qed.
(** Read2 and ReadTail2 give a Reader with nothing left in it, whatever the body: they have read the body into itself.
    What is then read from a body that is not empty is an error, or nothing. *)
Theorem C138_read2_refuted : forall b, bytes_ok b -> Body_Read2 b = Ok (Body_Reader [], None, b) /\ Body_ReadTail2 b = Ok (Body_Reader [], None, b).
Proof. intros b H. unfold Body_Read2, Body_ReadTail2. rewrite (self_read b H). now split. Qed.
Print Assumptions C138_read2_refuted.
(** for a body of four bytes, a number *)
Example C138_ex : exists b, body_of (DVal (TNum U32) 7) = Ok b /\ Read (TNum U32) 0 (mkSt (Body_Reader b) []) = Ok (7, st0 [] []) /\
  exists r, Body_Read2 b = Ok (r, None, b) /\ Read (TNum U32) 0 (mkSt r []) = Ok (0, mkSt (mkRd [] (Some EShort)) []).
Proof. eexists. split; [reflexivity|]. split; [reflexivity|]. eexists. split; reflexivity. Qed.
