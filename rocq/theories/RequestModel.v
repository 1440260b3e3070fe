(** Model of the request life cycle: request.go, response.go (Bookmark), service.go (SF, Route),
    stat.go. One request, any number of goroutines; one step = one atomic action (a
    compare-and-swap, a plain load or store of a shared field, lock, unlock, or one call of a
    callback).

    Simplifications: memory is sequentially consistent; callbacks (Responder, bookmarks) return;
    a bookmark is chained as a fresh value, so the prev pointers (response.go:68-87) form a list;
    the effects of a bookmark on the request are limited to ResetToPending, ResetToNew and
    SetInFly(nil) (what the bookmarks in /repo do), in any order and number. *)
From Coq Require Import ZArith List Bool Arith.
Import ListNotations.
Open Scope Z_scope.

(** request.go:223-233. *)
Definition RsNew : Z := 0.
(** request.go:229 *)
Definition RsPending : Z := 1.
(** request.go:230 *)
Definition RsInFly : Z := 2.
(** request.go:231 *)
Definition RsPrepared : Z := 4.
(** request.go:232 *)
Definition RsPerformed : Z := 8.

(** response.go:12-30. *)
Definition RcOK : Z := 0.
(** response.go:14 *)
Definition RcTemporary : Z := 1.
(** response.go:15 *)
Definition RcFatal : Z := 2.
(** response.go:16 *)
Definition RcInternal : Z := 3.
(** response.go:17 *)
Definition RcKindMask : Z := 7.
(** response.go:21 *)
Definition RcShutdown : Z := 65283.       (* 0xff03 *)
(** response.go:22 *)
Definition RcProtocolError : Z := 770.    (* 0x0302 *)
(** response.go:23 *)
Definition RcInternalError : Z := 64514.  (* 0xfc02 *)
(** response.go:26 *)
Definition RcCanceled : Z := 65283.       (* 0xff03 *)
(** response.go:27 *)
Definition RcIOError : Z := 65027.        (* 0xfe03 *)
(** response.go:28 *)
Definition RcTimeout : Z := 64771.        (* 0xfd03 *)

(** Calls made on the request by goroutines. *)
Inductive op :=
| OSetPending                               (* request.go:76-78 *)
| OSetInFlyNil                              (* request.go:85-87, mid == nil *)
| OSetInFly (b : nat)                       (* request.go:85-98, bookmark b *)
| ORespondBytes (code : Z) (body : list Z)  (* request.go:165-171 (and Respond, 155-163) *)
| ORespondFail (code : Z)                   (* request.go:173-179 *)
| OChainBookmark (b : nat)                  (* request.go:181-189 *)
| OSF                                       (* service.go:35-39 SF.Send *)
| ORoute.                                   (* service.go:19-23 Route.Send *)

(** request.go:51-65. *)
Definition OExpire := ORespondFail RcTimeout.
(** Cancel, request.go:55-57 *)
Definition OCancel := ORespondFail RcCanceled.
(** IOError, request.go:59-61 *)
Definition OIOError := ORespondFail RcIOError.
(** ShutDown, request.go:63-65 *)
Definition OShutDown := ORespondFail RcShutdown.

(** What a bookmark's Respond does to the request. response.go:62-66, buffer.go:16-18 *)
Inductive ract := AResetPending | AResetNew | AInFlyNil.

(** Observable events, newest first in a trace. bookkeeping: the choices of the environment and of the scheduler *)
Inductive ev :=
| EvPending (t : nat)             (* a SetPending call of goroutine t succeeded *)
| EvInFly (b : option nat)        (* a SetInFly call succeeded, with this bookmark or nil *)
| EvChained (b : nat)             (* a bookmark was put on the chain *)
| EvPrepared                      (* a completion started *)
| EvNotify (b : nat) (code : Z)   (* bookmark b's Respond was called *)
| EvReset (b : nat) (pend : bool) (* bookmark b re-armed the request (to Pending or to New) *)
| EvUnchained (b : nat)           (* bookmark b was taken off the chain *)
| EvDelivered (id msg code : Z) (body : option (list Z))  (* Responder.Respond was called *)
| EvRun (t : nat)                 (* an SF function was started by goroutine t *)
| EvRouted.                       (* a Route function was started *)

(** Shared part of the request (request.go:27-38). [rcode]/[rbody] are r.Response.Code/Body. *)
Record shared := mkSh { st : Z; lk : option nat; ch : list nat;
                        rcode : Z; rbody : option (list Z); tr : list ev }.

(** where a goroutine is in the method it runs: request.go:40-194, service.go:19-39 *)
Inductive pc :=
| Idle
| SF2 (t : nat)                                (* between the two calls of SF.Send *)
| LockIF (b : nat) | LockCB (b : nat) | LockB (code : Z) (body : list Z) | LockF (code : Z)
| CheckIF (b : nat) | CheckCB (b : nat) | CheckB (code : Z) (body : list Z) | CheckF (code : Z)
| StoreIF (b : nat)                            (* request.go:91 *)
| ChainIt (b : nat)                            (* request.go:92, 185: setReq *)
| Prep (code : Z) (body : option (list Z))     (* request.go:130-138 *)
| StorePrepared                                (* request.go:140 *)
| Walk                                         (* request.go:141 *)
| React (b : nat) (l : list ract)              (* inside chain.Respond, line 142 *)
| CheckSt (b : nat)                            (* request.go:143 *)
| Unchain (b : nat)                            (* request.go:146 *)
| Deliver                                      (* request.go:148 *)
| StorePerf                                    (* request.go:149-152 *)
| Unlock (res : bool)
| Panicked.                                    (* log.Panicf inside a locked region *)

(** bookkeeping: a goroutine, the calls it still has to make and those it has made *)
Record thread := mkTh { tpc : pc; prog : list op; dn : list (op * bool); cur : op }.

Section Step.
(** Reaction of a bookmark, chosen freely from what happened so far (the newest event is the
    notification with its code). *)
Variable react : nat -> list ev -> list ract.
Variables rid rmsg : Z.

(** bookkeeping: an observation *)
Definition log (s : shared) (e : ev) : shared :=
  mkSh (st s) (lk s) (ch s) (rcode s) (rbody s) (e :: tr s).
(** bookkeeping: the state with one component replaced; the assignments of the steps below *)
Definition set_st (s : shared) (x : Z) : shared := mkSh x (lk s) (ch s) (rcode s) (rbody s) (tr s).
Definition set_lk (s : shared) (x : option nat) : shared := mkSh (st s) x (ch s) (rcode s) (rbody s) (tr s).
Definition set_ch (s : shared) (x : list nat) : shared := mkSh (st s) (lk s) x (rcode s) (rbody s) (tr s).

(** bookkeeping: the program counter of a goroutine is moved *)
Definition goto (th : thread) (p : pc) : thread := mkTh p (prog th) (dn th) (cur th).
(** return [res] from the current call; bookkeeping: a call returns *)
Definition ret (th : thread) (res : bool) : thread := mkTh Idle (prog th) ((cur th, res) :: dn th) (cur th).

(** r.Lock(), request.go:85, 111, 120, 165, 173, 181: possible when nobody holds the mutex *)
Definition acquire (s : shared) (t : nat) (th : thread) (p : pc) : option (shared * thread) :=
  match lk s with
  | None => Some (set_lk s (Some t), goto th p)
  | Some _ => None
  end.

(** one step of a goroutine: request.go:51-194, service.go:19-39 *)
Definition tstep (s : shared) (t : nat) (th : thread) : option (shared * thread) :=
  match tpc th with
  | Idle =>
      match prog th with
      | [] => None
      | o :: rest =>
          let th := mkTh Idle rest (dn th) o in
          match o with
          | OSetPending =>  (* one compare-and-swap, request.go:71-78 *)
              if st s =? RsNew then Some (log (set_st s RsPending) (EvPending t), ret th true)
              else Some (s, ret th false)
          | OSetInFlyNil => (* one compare-and-swap, request.go:87 *)
              if st s =? RsPending then Some (log (set_st s RsInFly) (EvInFly None), ret th true)
              else Some (s, ret th false)
          | OSF => (* r.SetPending() && ... *)
              if st s =? RsNew then Some (log (set_st s RsPending) (EvPending t), goto th (SF2 t))
              else Some (s, ret th false)
          | ORoute =>
              if st s =? RsNew then Some (log s EvRouted, ret th true) else Some (s, ret th false)
          | OSetInFly b => Some (s, goto th (LockIF b))
          | OChainBookmark b => Some (s, goto th (LockCB b))
          | ORespondBytes c d => Some (s, goto th (LockB c d))
          | ORespondFail c => Some (s, goto th (LockF c))
          end
      end
  | SF2 t' =>
      if st s =? RsPending then Some (log (log (set_st s RsInFly) (EvInFly None)) (EvRun t'), ret th true)
      else Some (s, ret th false)
  | LockIF b => acquire s t th (CheckIF b)
  | LockCB b => acquire s t th (CheckCB b)
  | LockB c d => acquire s t th (CheckB c d)
  | LockF c => acquire s t th (CheckF c)
  | CheckIF b =>
      if st s =? RsPending then Some (s, goto th (StoreIF b)) else Some (s, goto th (Unlock false))
  | StoreIF b => Some (log (set_st s RsInFly) (EvInFly (Some b)), goto th (ChainIt b))
  | ChainIt b => Some (log (set_ch s (b :: ch s)) (EvChained b), goto th (Unlock true))
  | CheckCB b =>
      if (st s =? RsNew) || (st s =? RsPending) then Some (s, goto th (ChainIt b))
      else Some (s, goto th (Unlock false))
  | CheckB c d =>
      if st s =? RsInFly then Some (s, goto th (Prep c (Some d))) else Some (s, goto th (Unlock false))
  | CheckF c =>
      if Z.land (st s) (Z.lor RsPrepared RsPerformed) =? 0 then Some (s, goto th (Prep c None))
      else Some (s, goto th (Unlock false))
  | Prep c d => Some (mkSh (st s) (lk s) (ch s) c d (tr s), goto th StorePrepared)
  | StorePrepared => Some (log (set_st s RsPrepared) EvPrepared, goto th Walk)
  | Walk =>
      match ch s with
      | [] => Some (s, goto th Deliver)
      | b :: _ => let s' := log s (EvNotify b (rcode s)) in Some (s', goto th (React b (react b (tr s'))))
      end
  | React b [] => Some (s, goto th (CheckSt b))
  | React b (a :: l) =>
      match a with
      | AResetPending => (* request.go:111-118 *)
          if st s =? RsPrepared then Some (log (set_st s RsPending) (EvReset b true), goto th (React b l))
          else Some (s, goto th Panicked)
      | AResetNew => (* request.go:120-127 *)
          if st s =? RsPrepared then Some (log (set_st s RsNew) (EvReset b false), goto th (React b l))
          else Some (s, goto th Panicked)
      | AInFlyNil =>
          if st s =? RsPending then Some (log (set_st s RsInFly) (EvInFly None), goto th (React b l))
          else Some (s, goto th (React b l))
      end
  | CheckSt b =>
      if st s =? RsPrepared then Some (s, goto th (Unchain b)) else Some (s, goto th (Unlock true))
  | Unchain b => Some (log (set_ch s (tl (ch s))) (EvUnchained b), goto th Walk)
  | Deliver => Some (log s (EvDelivered rid rmsg (rcode s) (rbody s)), goto th StorePerf)
  | StorePerf => Some (set_st s RsPerformed, goto th (Unlock true))
  | Unlock res => Some (set_lk s None, ret th res)
  | Panicked => None
  end.

(** The system: shared state and goroutines. Request, request.go:27-38 *)
Record sys := mkSys { sh : shared; ths : list thread }.

(** bookkeeping: a function changed at one argument *)
Fixpoint upd (l : list thread) (n : nat) (th : thread) : list thread :=
  match l, n with
  | [], _ => []
  | _ :: l, O => th :: l
  | x :: l, S n => x :: upd l n th
  end.

(** One scheduling decision: goroutine [t] does its next action, if it can. request.go:71-189 *)
Definition step (s : sys) (t : nat) : sys :=
  match nth_error (ths s) t with
  | None => s
  | Some th =>
      match tstep (sh s) t th with
      | None => s
      | Some (h, th') => mkSys h (upd (ths s) t th')
      end
  end.

(** bookkeeping: a schedule, event by event *)
Definition run (s : sys) (sched : list nat) : sys := fold_left step sched s.

(** A fresh request (state New, as in request.go:242) and goroutines with given programs. *)
Definition init (progs : list (list op)) : sys :=
  mkSys (mkSh RsNew None [] 0 None [])
        (map (fun p => mkTh Idle p [] OSetPending) progs).
End Step.

(** ReqContext.Respond as a bookmark reaction (request.go:196-206): only a timeout re-arms. *)
Definition reqcontext_react (code : Z) : list ract :=
  if code =? RcCanceled then [] else if code =? RcTimeout then [AResetPending; AInFlyNil] else [].
