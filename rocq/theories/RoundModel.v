(** A MultiRequest used more than once, and its timer (wait_group.go): after Results or Each has returned the user may
    make further requests and call Results (or, after Results, Each) again; SetTimeout arms a timer for the whole
    MultiRequest. The machine is the one of MultiModel.v with these additions, one step as there.

    Simplifications, besides those of MultiModel.v. Each is called at most once (a second call replaces the channel
    while completions may still send to the first one). The timer is armed or not: when it is, it may expire at any
    time (TimerModel.v has the heap, custom_timer.go). Timer.Stop, and the expiry taking the timer out of the heap, are
    atomic. SetTimeout is called by the goroutine using the MultiRequest, between other calls. *)
From Coq Require Import List Bool Arith.
Import ListNotations.
From Verif Require Import MultiModel.

(** MultiRequest with its timer, wait_group.go:50-64 *)
Record rs := mkR {
  base : st;
  tset : bool;               (* w.timerSet *)
  armed : bool;              (* w.timer is in a heap *)
  inherits : nat -> bool     (* timerSet of request i as Request made it: SetTimeout of the request does nothing *) }.
(** NewMulti on a live context, context.go:163-176 *)
Definition r_init : rs := mkR m_init false false (fun _ => false).
(** bookkeeping: the state with some components replaced *)
Definition w_base s b := mkR b (tset s) (armed s) (inherits s).
Definition w_armed s v := mkR (base s) (tset s) v (inherits s).

(** bookkeeping: the choices of the environment and of the scheduler *)
Inductive rev :=
| B (e : ev)
| Again            (* the user, after Results or Each, goes on *)
| SetTimeout       (* the user calls SetTimeout with a positive duration *)
| Fire (k : nat).  (* the timer expires: its loop calls Expire, as call k *)

(** the next step of the completion of request i calls w.timer.Stop(): wait_group.go:176-178, 186-187 *)
Definition stops (s : st) (i : nat) : bool :=
  match dp s i with
  | D4 => (S (cn s) =? rn s) && kwait s
  | D7 => true
  | _ => false
  end.
(** bookkeeping: a step of the machine of MultiModel.v *)
Definition lift (s : rs) (x : result) : list obs * option rs :=
  match x with (o, None) => (o, None) | (o, Some b) => (o, Some (w_base s b)) end.
Definition rstep (s : rs) (e : rev) : list obs * option rs :=
  match e with
  | B Issue =>      (* wait_group.go:88, req.timerSet = w.timerSet *)
      match op (base s) with
      | O0 => lift (mkR (base s) (tset s) (armed s) (upd (inherits s) (rn (base s)) (tset s))) (step (base s) Issue)
      | _ => ([], Some s)
      end
  | B Each => match chan (base s) with None => lift s (step (base s) Each) | Some _ => ([], Some s) end
  | B (Resp i) => lift (if stops (base s) i then w_armed s false else s) (step (base s) (Resp i))
  | B e => lift s (step (base s) e)
  | Again => match op (base s) with OEnd => ([], Some (w_base s (w_op (base s) O0))) | _ => ([], Some s) end
  | SetTimeout =>   (* wait_group.go:74-79 *)
      match op (base s) with
      | O0 | OEnd => if tset s then ([], Some s) else ([], Some (mkR (base s) true true (inherits s)))
      | _ => ([], Some s)
      end
  | Fire k =>       (* custom_timer.go: the loop takes the timer out of the heap and calls Expire, wait_group.go:203-209 *)
      if armed s then match kp (base s) k with KIdle => lift (w_armed s false) (step (base s) (Cancel k)) | _ => ([], Some s) end
      else ([], Some s)
  end.
(** bookkeeping: a schedule, event by event *)
Fixpoint rrun (s : rs) (es : list rev) : list obs * option rs :=
  match es with
  | [] => ([], Some s)
  | e :: es =>
      match rstep s e with
      | (o, None) => (o, None)
      | (o, Some s) => let '(o', s') := rrun s es in (o ++ o', s')
      end
  end.
