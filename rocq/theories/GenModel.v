(** Model of RGenerator (generator.go) and of the objects that make requests with one: contexts (context.go), MultiRequests
    (wait_group.go) and the contexts of ParallelService (parallel_service.go). Any number of goroutines use any number of
    these objects. One step is the part of a call between two accesses to the generator.

    Simplifications. Write of the marshal package is one step that appends the encoding to the pending bytes of the
    generator's Writer and may then panic, with the bytes written so far left pending (PrimModel.v and CodecModel.v have the
    bytes and the memory behind them). The increment of gen.i with its test is one step, and so is all of NewMulti and all
    of Done. Release is one step: all of it happens under the mutex of the generator. Numbers do not wrap. A slot of
    gen.res belongs to the slot of gen.req with the same index and is not shown. *)
From Coq Require Import List Bool Arith.
Import ListNotations.

(** a value given as the body of a request: a Body is taken as it is; otherwise the bytes Write emits, and whether Write
    panics after them; generator.go:21-43 *)
Inductive value := VBody (b : list nat) | VEnc (b : list nat) (fails : bool).
(** generator.go:12-19; a cache is named by a number: 0 is gencache, S n is the cache of service n *)
Record gen := mkGen {
  arr : option nat;          (* gen.req, the number of the array *)
  idx : nat;                 (* gen.i *)
  pend : list nat;           (* gen.w, the bytes not yet taken by Written *)
  rel : option nat }.        (* gen.g *)
(** KSub r is a MultiRequest made by NewMulti of context r; KServ n is the context of a request of service n; context.go:139-178, wait_group.go:81-106, parallel_service.go:104-121 *)
Inductive kind := KCtx | KMul | KSub (r : nat) | KServ (n : nat).
(** context.go:46-59, wait_group.go:50-64 *)
Record obj := mkObj { knd : kind; ogen : option nat; own : bool; cnt : nat }.
(** where a goroutine is *)
Inductive pc :=
| PIdle
| QGen (o : nat) (v : value)                                        (* context.go:139-144, wait_group.go:82-85 *)
| QAlloc (o : nat) (v : value) (g id : nat)                         (* generator.go:23-26 *)
| QSlot (o : nat) (v : value) (g id : nat)                          (* :27-29 *)
| QInc (o : nat) (v : value) (g id a i : nat)                       (* :30-34 *)
| QWrite (o : nat) (v : value) (g id a i : nat)                     (* :38-39 *)
| QTake (o : nat) (v : value) (g id a i : nat)                      (* :40 *)
| QRet (o : nat) (v : value) (g id a i : nat) (b : list nat).       (* :42, wait_group.go:87-100 *)
Record st := mkSt {
  gens : nat -> gen;
  ngen : nat;                (* generators made so far *)
  narr : nat;                (* arrays made so far *)
  cache : nat -> list nat;
  objs : nat -> option obj;
  pcs : nat -> pc }.
(** &RGenerator{}, generator.go:58-65 *)
Definition g_zero : gen := mkGen None 0 [] None.
(** nothing was made; gencache is empty, generator.go:67 *)
Definition s_init : st := mkSt (fun _ => g_zero) 0 0 (fun _ => []) (fun _ => None) (fun _ => PIdle).
(** bookkeeping: a function changed at one argument *)
Definition upd {A} (f : nat -> A) (k : nat) (v : A) : nat -> A := fun i => if i =? k then v else f i.
(** bookkeeping: the state with one component replaced; the assignments of the steps below *)
Definition w_gen s g v := mkSt (upd (gens s) g v) (ngen s) (narr s) (cache s) (objs s) (pcs s).
Definition w_cache s c v := mkSt (gens s) (ngen s) (narr s) (upd (cache s) c v) (objs s) (pcs s).
Definition w_obj s o v := mkSt (gens s) (ngen s) (narr s) (cache s) (upd (objs s) o (Some v)) (pcs s).
Definition w_pc s k v := mkSt (gens s) (ngen s) (narr s) (cache s) (objs s) (upd (pcs s) k v).
Definition w_narr s v := mkSt (gens s) (ngen s) v (cache s) (objs s) (pcs s).

(** generator.go:58-65 *)
Definition Get (c : nat) (s : st) : nat * st :=
  match cache s c with
  | g :: l => (g, w_cache s c l)
  | [] => let g := ngen s in (g, mkSt (upd (gens s) g (mkGen None 0 [] (Some c))) (S g) (narr s) (cache s) (objs s) (pcs s))
  end.
(** generator.go:45-56; caps: the capacity of the caches, generator.go:67 and parallel_service.go:27 *)
Definition Release (caps : nat -> nat) (g : nat) (s : st) : st :=
  let x := gens s g in
  match rel x with
  | None => s
  | Some c =>
    let s := w_gen s g (mkGen (arr x) (idx x) (pend x) None) in
    if length (cache s c) <? caps c then w_cache s c (cache s c ++ [g]) else s
  end.

(** bookkeeping: what can be observed from outside *)
Inductive obs :=
| ONew (o : nat) (k : kind)
| OGot (o g : nat)                             (* object o was given generator g by Get *)
| OMulti (o o' : nat)                          (* NewMulti of context o returned o' *)
| OCall (k o : nat) (v : value)                (* goroutine k calls NewRequest or Request of o *)
| OReq (k o id a i : nat) (b : list nat)       (* ... it returns the request in slot i of array a, with this Id and Body *)
| OFail (k o : nat)                            (* ... it panics *)
| ODone (o : nat).                             (* Done of a context, Each or Results of a MultiRequest, end of a handler *)
Inductive ev :=
| New (o : nat) (multi : bool)                 (* a Context or MultiRequest is declared *)
| Serve (o n : nat)                            (* Loop of service n makes a context, parallel_service.go:88-89 *)
| Multi (o o' : nat)
| Call (k o : nat) (v : value)
| Done (o : nat)
| Go (k : nat).

(** bookkeeping: a step without observation *)
Definition ok (s : st) : list obs * st := ([], s).
(** context.go:141-144 and wait_group.go:82-85: the object gets a generator if it has none *)
Definition need (o : nat) (x : obj) (s : st) : list obs * (nat * obj * st) :=
  match ogen x with
  | Some g => ([], (g, x, s))
  | None => let '(g, s) := Get 0 s in let x := mkObj (knd x) (Some g) true (cnt x) in ([OGot o g], (g, x, w_obj s o x))
  end.
(** context.go:165-178: the new MultiRequest has the context's generator *)
Definition step_multi (s : st) (o o' : nat) : list obs * st :=
  match objs s o, objs s o' with
  | Some x, None =>
    match knd x with
    | KCtx | KServ _ =>
      let '(t, (g, _, s)) := need o x s in
      (t ++ [OMulti o o'], w_obj s o' (mkObj (KSub o) (Some g) false 0))
    | _ => ok s
    end
  | _, _ => ok s
  end.
(** context.go:274-283; wait_group.go:125-127 and 148-150; parallel_service.go:111-112 *)
Definition step_done (caps : nat -> nat) (s : st) (o : nat) : list obs * st :=
  match objs s o with
  | None => ok s
  | Some x =>
    match knd x, ogen x with
    | KCtx, Some g => if own x then ([ODone o], Release caps g (w_obj s o (mkObj KCtx (Some g) false (cnt x)))) else ([ODone o], s)
    | KMul, Some g => if own x then ([ODone o], Release caps g s) else ([ODone o], s)
    | KServ n, Some g => ([ODone o], Release caps g s)
    | _, _ => ([ODone o], s)
    end
  end.
Definition step_go (s : st) (k : nat) : list obs * st :=
  match pcs s k with
  | PIdle => ok s
  | QGen o v =>
    match objs s o with
    | None => ok s
    | Some x =>
      match knd x with
      | KCtx | KServ _ =>   (* context.go:140, c.reqId++ *)
        let x := mkObj (knd x) (ogen x) (own x) (S (cnt x)) in
        let '(t, (g, x, s)) := need o x (w_obj s o x) in (t, w_pc s k (QAlloc o v g (cnt x)))
      | _ => let '(t, (g, x, s)) := need o x s in (t, w_pc s k (QAlloc o v g (cnt x)))
      end
    end
  | QAlloc o v g id =>
    let x := gens s g in
    match arr x with
    | Some _ => ok (w_pc s k (QSlot o v g id))
    | None => ok (w_pc (w_gen (w_narr s (S (narr s))) g (mkGen (Some (narr s)) (idx x) (pend x) (rel x))) k (QSlot o v g id))
    end
  | QSlot o v g id =>
    match arr (gens s g) with
    | None => ([OFail k o], w_pc s k PIdle)     (* nil dereference *)
    | Some a =>
      if 32 <=? idx (gens s g) then ([OFail k o], w_pc s k PIdle)     (* index out of range *)
      else ok (w_pc s k (QInc o v g id a (idx (gens s g))))
    end
  | QInc o v g id a i =>
    let x := gens s g in
    let x := if S (idx x) =? 32 then mkGen None 0 (pend x) (rel x) else mkGen (arr x) (S (idx x)) (pend x) (rel x) in
    ok (w_pc (w_gen s g x) k (QWrite o v g id a i))
  | QWrite o v g id a i =>
    let x := gens s g in
    match v with
    | VBody b => ok (w_pc s k (QRet o v g id a i b))
    | VEnc b fails =>
      let s := w_gen s g (mkGen (arr x) (idx x) (pend x ++ b) (rel x)) in
      if fails then ([OFail k o], w_pc s k PIdle) else ok (w_pc s k (QTake o v g id a i))
    end
  | QTake o v g id a i =>
    let x := gens s g in ok (w_pc (w_gen s g (mkGen (arr x) (idx x) [] (rel x))) k (QRet o v g id a i (pend x)))
  | QRet o v g id a i b =>
    let s := match objs s o with
             | Some x => match knd x with
                         | KMul | KSub _ => w_obj s o (mkObj (knd x) (ogen x) (own x) (S (cnt x)))   (* w.requests grows *)
                         | _ => s
                         end
             | None => s
             end in
    ([OReq k o id a i b], w_pc s k PIdle)
  end.
(** one step: an object is made (context.go:165-178, request.go:215-221), a request is issued (generator.go:21-43, context.go:139-163, wait_group.go:81-106), Done (context.go:274-283), or a call goes on (generator.go:45-65) *)
Definition step (caps : nat -> nat) (s : st) (e : ev) : list obs * st :=
  match e with
  | New o multi => match objs s o with
                   | None => let k := if multi then KMul else KCtx in ([ONew o k], w_obj s o (mkObj k None false 0))
                   | _ => ok s
                   end
  | Serve o n => match objs s o with
                 | None => let '(g, s) := Get (S n) s in ([ONew o (KServ n); OGot o g], w_obj s o (mkObj (KServ n) (Some g) false 0))
                 | _ => ok s
                 end
  | Multi o o' => step_multi s o o'
  | Call k o v => match pcs s k, objs s o with PIdle, Some _ => ([OCall k o v], w_pc s k (QGen o v)) | _, _ => ok s end
  | Done o => step_done caps s o
  | Go k => step_go s k
  end.
(** bookkeeping: a schedule, event by event *)
Fixpoint run (caps : nat -> nat) (s : st) (es : list ev) : list obs * st :=
  match es with
  | [] => ([], s)
  | e :: es => let '(o, s) := step caps s e in let '(t, s) := run caps s es in (o ++ t, s)
  end.
(** bookkeeping: a schedule from the initial state *)
Definition start (caps : nat -> nat) (es : list ev) : list obs * st := run caps s_init es.
