(** Model of contexts and the requests issued through them (context.go, request.go:40-53, 76-98, 129-179, 191-221), in
    one machine: NewRequest, Child, Done, Cancel and Expire with cancelAll, the completion of requests with its bookmarks
    (contextBookmark, ReqContext), and Request.Context, by which a handler takes a request and gets a context of its own,
    to issue further requests through. So requests and contexts form a tree, and Cancel goes down the tree by calls within
    calls: each goroutine has a stack.

    Any number of contexts, requests and goroutines. One step is one atomic action of one goroutine.

    Simplifications: memory is sequentially consistent; the stretches in which the mutex of a context is held are single
    steps, except in AddCanceler, which reads the state before it registers; the array cancels is a list of at most two
    (ContextModel.v has its slots, the count, and WaitAll, which is left out here); NewRequest chains its bookmark in the
    step that loads the state (nobody else knows the request yet); contextBookmark.Cancel calls Cancel of the request
    also when the bookmark has been unchained already (the call then finds the request performed); other bookmarks,
    bodies, timers (DueModel.v), generators (GenModel.v) and multi-requests (MultiModel.v) are left out. The Responder of
    a request is a channel with room for its response (context.go:146-147), which never blocks. *)
From Coq Require Import ZArith List Bool Arith.
Import ListNotations.
From Verif Require Import RequestModel.
Open Scope Z_scope.

(** bookkeeping: a function changed at one argument *)
Definition fupd {A} (f : nat -> A) (i : nat) (v : A) : nat -> A := fun j => if Nat.eqb j i then v else f j.
(** RespondBytes (request.go:165-171) or RespondFail (173-179) with a code *)
Inductive answer := Bytes (code : Z) | Fail (code : Z).
(** bookkeeping: the code of an answer *)
Definition code_of (a : answer) : Z := match a with Bytes c | Fail c => c end.

(** what a Context has registered: the bookmark of a request (context.go:17-20) or a child (213-222) *)
Inductive canc := CR (r : nat) | CX (c : nat).
(** Go compares the interface values, context.go:65 *)
Definition ceq (a b : canc) : bool :=
  match a, b with CR i, CR j => Nat.eqb i j | CX i, CX j => Nat.eqb i j | _, _ => false end.

(** CxState, context.go:38-44: None is CxOK *)
Inductive cause := CxCanceled | CxTimeout.
(** a Context, context.go:46-59: State; cancels; cancelsm; parent; the mutex is held by an AddCanceler;
    bookkeeping: somebody has it *)
Record ctx := mkCx { st : option cause; sl : list canc; mp : list canc; par : option nat; mu : bool; cborn : bool }.
(** State is not CxOK; context.go:85, 128, 134, 149, 215 *)
Definition dead (v : ctx) : bool := match st v with None => false | Some _ => true end.
(** a Request, request.go:27-38: state, mutex, the context whose contextBookmark is chained, the context of its handler
    (ReqContext, chained later and therefore called first); bookkeeping: NewRequest has been called for it, has returned *)
Record rq_ := mkR { state : Z; lock : option nat; own : option nat; hc : option nat; born : bool; made : bool }.

(** a call under way, and where it is *)
Inductive frame :=
| FCas (w : cause) (c : nat)        (* context.go:128 with CxCanceled, 134 with CxTimeout *)
| FL1 (c : nat)                     (* :108, len(c.cancelsm) > 0 *)
| FL2 (c : nat)                     (* :108, c.cancelsn > 0 *)
| FColl (c : nat)                   (* :109-119 *)
| FCall (c : nat) (l : list canc)   (* :120-122 *)
| FN0 (c r : nat)                   (* NewRequest, :149-161 *)
| FC0 (c d : nat)                   (* Child, :215-220 *)
| FA0 (c : nat) (x : canc)          (* AddCanceler, :82-84 *)
| FA1 (c : nat) (x : canc)          (* :86-100, the mutex is held *)
| FD0 (d : nat)                     (* Done, :275-276 *)
| FD1 (p d : nat)                   (* :277 *)
| FLk (r : nat) (a : answer)        (* request.go:166, 174 *)
| FCk (r : nat) (a : answer)        (* :167, 175 *)
| FPr (r : nat) (a : answer)        (* :130-140 *)
| FB1 (r : nat) (a : answer)        (* :142 with ReqContext.Respond, :196-206 *)
| FR1 (r : nat) (a : answer)        (* ResetToPending, :111-118 *)
| FR2 (r : nat) (a : answer)        (* SetInFly(nil), :88 *)
| FB2 (r : nat) (a : answer)        (* request.go:142 with contextBookmark.Respond, context.go:22-26 *)
| FDl (r : nat) (a : answer)        (* request.go:148 *)
| FPf (r : nat) (a : answer)        (* :149-151 *)
| FUl (r : nat) (a : answer).       (* :170, 178 *)
(** a call by a user *)
Inductive job := JNew (c r : nat) | JChild (c d : nat) | JCancel (c : nat) | JDone (d : nat) | JRespond (r : nat) (a : answer).

(** contexts, requests, goroutines *)
Record sys := mkSys { cx : nat -> ctx; rq : nat -> rq_; jb : nat -> option job; stk : nat -> list frame }.

(** calls of the library, and the scheduler *)
Inductive ev :=
| ERoot (c : nat)                  (* a new Context *)
| ENew (k c r : nat)               (* goroutine k calls NewRequest of context c, for the request r *)
| EChild (k c d : nat)             (* Child of c, for d; also by Go, GoInt, GoAsync and GoIntAsync *)
| ECancel (k c : nat) (w : cause)  (* Cancel of a context, or Expire *)
| EDone (k d : nat)                (* Done of a context *)
| ERespond (k r : nat) (a : answer)(* RespondBytes or RespondFail, or Cancel, Expire and the like, of a request *)
| EPend (r : nat)                  (* SetPending *)
| EFly (r : nat)                   (* SetInFly(nil) *)
| EHandle (r x : nat)              (* Context() of a request, for the context x, request.go:215-221 *)
| EGo (k : nat).                   (* the next step of goroutine k *)

(** bookkeeping: what happens *)
Inductive obs :=
| ONew (k c r : nat) | ONewRet (k c r : nat)
| OChild (k c d : nat) | OChildRet (k c d : nat)
| OCancel (k c : nat) (w : cause) | OCancelRet (k c : nat)
| OSet (k c : nat)                 (* Cancel or Expire takes effect: c is not alive any more; goroutine k is doing it *)
| ODone (d : nat)                  (* Done is called *)
| ORespond (k r : nat) (c : Z)     (* RespondBytes or RespondFail is called with this code *)
| ODeliver (r : nat) (c : Z)       (* the Responder is called *)
| OHandle (r x : nat).             (* a handler has taken r, x is its context *)

(** bookkeeping: the state with one component replaced *)
Definition set_cx (s : sys) (c : nat) (v : ctx) : sys := mkSys (fupd (cx s) c v) (rq s) (jb s) (stk s).
(** bookkeeping *)
Definition set_rq (s : sys) (r : nat) (v : rq_) : sys := mkSys (cx s) (fupd (rq s) r v) (jb s) (stk s).
(** bookkeeping *)
Definition set_jb (s : sys) (k : nat) (v : option job) : sys := mkSys (cx s) (rq s) (fupd (jb s) k v) (stk s).
(** bookkeeping *)
Definition set_stk (s : sys) (k : nat) (v : list frame) : sys := mkSys (cx s) (rq s) (jb s) (fupd (stk s) k v).
(** bookkeeping *)
Definition set_dead (s : sys) (c : nat) (w : cause) : sys :=
  set_cx s c (mkCx (Some w) (sl (cx s c)) (mp (cx s c)) (par (cx s c)) (mu (cx s c)) (cborn (cx s c))).
(** bookkeeping *)
Definition set_mu (s : sys) (c : nat) (b : bool) : sys :=
  set_cx s c (mkCx (st (cx s c)) (sl (cx s c)) (mp (cx s c)) (par (cx s c)) b (cborn (cx s c))).
(** bookkeeping *)
Definition set_par (s : sys) (c : nat) (p : option nat) : sys :=
  set_cx s c (mkCx (st (cx s c)) (sl (cx s c)) (mp (cx s c)) p (mu (cx s c)) true).
(** bookkeeping *)
Definition set_state (s : sys) (r : nat) (z : Z) : sys :=
  set_rq s r (mkR z (lock (rq s r)) (own (rq s r)) (hc (rq s r)) (born (rq s r)) (made (rq s r))).
(** bookkeeping *)
Definition set_lock (s : sys) (r : nat) (l : option nat) : sys :=
  set_rq s r (mkR (state (rq s r)) l (own (rq s r)) (hc (rq s r)) (born (rq s r)) (made (rq s r))).
(** bookkeeping *)
Definition set_own (s : sys) (r c : nat) : sys :=
  set_rq s r (mkR (state (rq s r)) (lock (rq s r)) (Some c) (hc (rq s r)) (born (rq s r)) (made (rq s r))).
(** bookkeeping *)
Definition set_born (s : sys) (r : nat) : sys :=
  set_rq s r (mkR (state (rq s r)) (lock (rq s r)) (own (rq s r)) (hc (rq s r)) true (made (rq s r))).
(** bookkeeping *)
Definition set_made (s : sys) (r : nat) : sys :=
  set_rq s r (mkR (state (rq s r)) (lock (rq s r)) (own (rq s r)) (hc (rq s r)) (born (rq s r)) true).
(** SetInFly with a bookmark, request.go:86-98 *)
Definition set_hc (s : sys) (r x : nat) : sys :=
  set_rq s r (mkR RsInFly (lock (rq s r)) (own (rq s r)) (Some x) (born (rq s r)) (made (rq s r))).

(** AddCanceler, context.go:86-98 *)
Definition register (s : sys) (c : nat) (x : canc) : sys :=
  let v := cx s c in
  if (length (sl v) <? 2)%nat then set_cx s c (mkCx (st v) (sl v ++ [x]) (mp v) (par v) (mu v) (cborn v))
  else set_cx s c (mkCx (st v) (sl v) (mp v ++ [x]) (par v) (mu v) (cborn v)).
(** the list without the first x; context.go:64-70 *)
Fixpoint drop (x : canc) (l : list canc) : list canc :=
  match l with [] => [] | y :: l => if ceq x y then l else y :: drop x l end.
(** RemoveCanceler, context.go:61-78 *)
Definition unregister (s : sys) (c : nat) (x : canc) : sys :=
  let v := cx s c in
  if existsb (ceq x) (sl v) then set_cx s c (mkCx (st v) (drop x (sl v)) (mp v) (par v) (mu v) (cborn v))
  else set_cx s c (mkCx (st v) (sl v) (filter (fun y => negb (ceq x y)) (mp v)) (par v) (mu v) (cborn v)).
(** Cancel of a canceler: context.go:28-32 with request.go:55-57, or context.go:127 *)
Definition cancel_of (x : canc) : frame := match x with CR r => FLk r (Fail RcCanceled) | CX d => FCas CxCanceled d end.
(** the condition of RespondBytes (request.go:167) and of RespondFail (175) *)
Definition may (s : sys) (r : nat) (a : answer) : bool :=
  match a with
  | Bytes _ => state (rq s r) =? RsInFly
  | Fail _ => Z.land (state (rq s r)) (Z.lor RsPrepared RsPerformed) =? 0
  end.

(** the next step of a goroutine whose innermost call is at [f], the calls around it being [rest] *)
Definition go (s : sys) (k : nat) (f : frame) (rest : list frame) : list obs * sys :=
  let ok s' fs := ([], set_stk s' k (fs ++ rest)) in
  match f with
  | FCas w c => if dead (cx s c) then ok s [] else ([OSet k c], set_stk (set_dead s c w) k (FL1 c :: rest))
  | FL1 c => ok s [match mp (cx s c) with [] => FL2 c | _ => FColl c end]
  | FL2 c => match sl (cx s c) with [] => ok s [] | _ => ok s [FColl c] end
  | FColl c => if mu (cx s c) then ([], s) else ok s [FCall c (sl (cx s c) ++ mp (cx s c))]
  | FCall c [] => ok s [FL1 c]
  | FCall c (x :: l) => ok s [cancel_of x; FCall c l]
  | FN0 c r => if dead (cx s c) then ok s [FLk r (Fail RcCanceled)] else ok (set_own s r c) [FA0 c (CR r)]
  | FC0 c d => if dead (cx s c) then ok s [FCas CxCanceled d] else ok s [FA0 c (CX d)]
  | FA0 c x => if mu (cx s c) then ([], s)
               else if dead (cx s c) then ok s [cancel_of x] else ok (set_mu s c true) [FA1 c x]
  | FA1 c x => ok (set_mu (register s c x) c false) []
  | FD0 d => match par (cx s d) with Some p => ok (set_par s d None) [FD1 p d] | None => ok s [] end
  | FD1 p d => if mu (cx s p) then ([], s) else ok (unregister s p (CX d)) []
  | FLk r a => match lock (rq s r) with None => ok (set_lock s r (Some k)) [FCk r a] | Some _ => ([], s) end
  | FCk r a => ok s [if may s r a then FPr r a else FUl r a]
  | FPr r a => ok (set_state s r RsPrepared) [FB1 r a]
  | FB1 r a =>
      match hc (rq s r) with
      | None => ok s [FB2 r a]
      | Some x => if code_of a =? RcCanceled then ok s [FCas CxCanceled x; FB2 r a]
                  else if code_of a =? RcTimeout then ok s [FCas CxTimeout x; FR1 r a]
                  else ok s [FD0 x; FB2 r a]
      end
  | FR1 r a => ok (set_state s r RsPending) [FR2 r a]
  | FR2 r a => ok (if state (rq s r) =? RsPending then set_state s r RsInFly else s) [FUl r a]
  | FB2 r a =>
      match own (rq s r) with
      | None => ok s [FDl r a]
      | Some c => if mu (cx s c) then ([], s) else ok (unregister s c (CR r)) [FDl r a]
      end
  | FDl r a => ([ODeliver r (code_of a)], set_stk s k (FPf r a :: rest))
  | FPf r a => ok (set_state s r RsPerformed) [FUl r a]
  | FUl r a => ok (set_lock s r None) []
  end.

(** the call of goroutine k returns *)
Definition ret (s : sys) (k : nat) (j : job) : list obs * sys :=
  let s' := set_jb s k None in
  match j with
  | JNew c r => ([ONewRet k c r], set_made s' r)
  | JChild c d => ([OChildRet k c d], s')
  | JCancel c => ([OCancelRet k c], s')
  | _ => ([], s')
  end.

(** a call by goroutine k, if it is in no call *)
Definition call (s : sys) (k : nat) (j : job) (f : frame) (o : list obs) (s' : sys) : list obs * sys :=
  match jb s k with
  | None => (o, set_stk (set_jb s' k (Some j)) k [f])
  | Some _ => ([], s)
  end.

(** context.go:61-163, 213-222, 274-283; request.go:76-98, 129-179, 191-221 *)
Definition step (s : sys) (e : ev) : list obs * sys :=
  match e with
  | ERoot c => if cborn (cx s c) then ([], s) else ([], set_par s c None)
  | ENew k c r =>
      if cborn (cx s c) && negb (born (rq s r)) then call s k (JNew c r) (FN0 c r) [ONew k c r] (set_born s r) else ([], s)
  | EChild k c d =>
      if cborn (cx s c) && negb (cborn (cx s d)) then call s k (JChild c d) (FC0 c d) [OChild k c d] (set_par s d (Some c)) else ([], s)
  | ECancel k c w => if cborn (cx s c) then call s k (JCancel c) (FCas w c) [OCancel k c w] s else ([], s)
  | EDone k d => if cborn (cx s d) then call s k (JDone d) (FD0 d) [ODone d] s else ([], s)
  | ERespond k r a => if made (rq s r) then call s k (JRespond r a) (FLk r a) [ORespond k r (code_of a)] s else ([], s)
  | EPend r => ([], if made (rq s r) && (state (rq s r) =? RsNew) then set_state s r RsPending else s)
  | EFly r => ([], if made (rq s r) && (state (rq s r) =? RsPending) then set_state s r RsInFly else s)
  | EHandle r x =>
      match lock (rq s r) with
      | None => if made (rq s r) && (state (rq s r) =? RsPending) && negb (cborn (cx s x))
                then ([OHandle r x], set_hc (set_par s x None) r x) else ([], s)
      | Some _ => ([], s)
      end
  | EGo k =>
      match stk s k, jb s k with
      | f :: rest, _ => go s k f rest
      | [], Some j => ret s k j
      | [], None => ([], s)
      end
  end.

(** bookkeeping: a schedule, event by event *)
Fixpoint run (s : sys) (l : list ev) : list obs * sys :=
  match l with
  | [] => ([], s)
  | e :: l => let (o, s') := step s e in let (os, s'') := run s' l in (o ++ os, s'')
  end.

(** zero values, no call under way; context.go:46-59, request.go:27-38 *)
Definition init : sys :=
  mkSys (fun _ => mkCx None [] [] None false false) (fun _ => mkR RsNew None None None false false) (fun _ => None) (fun _ => []).
