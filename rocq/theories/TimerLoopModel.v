(** Model of tHeap.loop, custom_timer.go:98-135: the goroutine of a heap, its condition variable and the
    runtime timer that is to wake it up.

    One step is one atomic piece of the loop, of a client's Timer.After / Timer.Stop (which need the
    heap's mutex), one firing of the runtime timer or an advance of the clock. The heap operations are
    those of TimerModel. sync.Cond.Signal wakes the loop if it is already in Wait and is otherwise lost
    (the documented behaviour of sync.Cond). *)
From Coq Require Import ZArith List Bool Arith.
Import ListNotations.
From Verif Require Import TimerModel.
Open Scope Z_scope.

(** custom_timer.go:106-135 *)
Inductive lpc :=
| LOuter                          (* line 112: about to sample the clock, mutex held *)
| LInner (now : Z) (rechk : bool) (* line 113: head of the inner loop, mutex held *)
| LExpire (x : nat) (now : Z)     (* lines 123-127: mutex released, x.Expire() running *)
| LArmed                          (* between t.Reset and c.Wait, mutex held *)
| LWaiting                        (* in c.Wait, mutex released *)
| LWoken.                         (* signalled, wants the mutex back *)

(** [lrt]: when the runtime timer t will fire, if it is pending; [llag]: how much later than the sample
    it was set (specification only). custom_timer.go:87-135 *)
Record lst := mkL { lh : heap; lpc_ : lpc; lrt : option Z; llag : Z; lclock : Z }.

(** time.Hour, custom_timer.go:106-135 *)
Definition hour : Z := 3600000000000.

(** custom_timer.go:23-48, 106-135 *)
Inductive lact :=
| ATick (d : Z)            (* the clock advances by d >= 0 *)
| ALoop                    (* the loop goroutine runs its next piece *)
| ATimer                   (* the runtime timer fires: c.Signal() without the mutex, line 107 *)
| AArm (x : nat) (d : Z)   (* Timer.After(d, x) *)
| AStop (x : nat).         (* Timer.Stop() *)

(** the mutex is free; custom_timer.go:87-135 *)
Definition lock_free (pc : lpc) : bool :=
  match pc with LExpire _ _ | LWaiting | LWoken => true | _ => false end.
(** c.Signal(); custom_timer.go:137-163 *)
Definition lsignal (pc : lpc) : lpc := match pc with LWaiting => LWoken | _ => pc end.

(** [strict]: the runtime timer cannot fire between t.Reset and c.Wait (an assumption about scheduling
    that the code does not enforce). A disabled action leaves the state; [None] is a panic. custom_timer.go:23-48, 106-135 *)
Definition lstep (strict : bool) (s : lst) (a : lact) : option lst :=
  match a with
  | ATick d => Some (mkL (lh s) (lpc_ s) (lrt s) (llag s) (lclock s + Z.max 0 d))
  | ATimer =>
      match lrt s with
      | Some t =>
          if t <=? lclock s then
            match lpc_ s with
            | LArmed => if strict then Some s else Some (mkL (lh s) LArmed None (llag s) (lclock s))
            | pc => Some (mkL (lh s) (lsignal pc) None (llag s) (lclock s))
            end
          else Some s
      | None => Some s
      end
  | AArm x d =>
      if lock_free (lpc_ s) then
        match push (lh s) x (lclock s + d) with
        | None => None
        | Some (h, b) => Some (mkL h (if b then lsignal (lpc_ s) else lpc_ s) (lrt s) (llag s) (lclock s))
        end
      else Some s
  | AStop x =>
      if lock_free (lpc_ s) then
        match hstep (lh s) (Stop x) with
        | None => None
        | Some (h, _) => Some (mkL h (lpc_ s) (lrt s) (llag s) (lclock s))
        end
      else Some s
  | ALoop =>
      match lpc_ s with
      | LOuter => Some (mkL (lh s) (LInner (lclock s) false) (lrt s) (llag s) (lclock s))
      | LInner now rechk =>
          if size (lh s) =? 0 then
            (* t.Reset(time.Hour) *)
            Some (mkL (lh s) LArmed (Some (lclock s + hour)) 0 (lclock s))
          else
            match get (lh s) (top (lh s)) with
            | None => None
            | Some t =>
                if now <=? ie t then
                  if rechk then Some (mkL (lh s) LOuter (lrt s) (llag s) (lclock s))
                  else
                    (* t.Reset(h.h[h.top].e - now) *)
                    Some (mkL (lh s) LArmed (Some (lclock s + (ie t - now))) (lclock s - now) (lclock s))
                else
                  match remove (lh s) (top (lh s)), ix t with
                  | Some h, Some x => Some (mkL h (LExpire x now) (lrt s) (llag s) (lclock s))
                  | _, _ => None
                  end
            end
      | LExpire _ now => Some (mkL (lh s) (LInner now true) (lrt s) (llag s) (lclock s))
      | LArmed => Some (mkL (lh s) LWaiting (lrt s) (llag s) (lclock s))
      | LWaiting => Some s
      | LWoken => Some (mkL (lh s) LOuter (lrt s) (llag s) (lclock s))
      end
  end.

(** newHeap starts the loop: t = time.AfterFunc(time.Hour, ...), lines 102 and 107; custom_timer.go:98-110 *)
Definition linit (t0 : Z) : lst := mkL hinit LOuter (Some (t0 + hour)) 0 t0.
(** bookkeeping: a schedule of the loop *)
Fixpoint lrun (strict : bool) (s : lst) (acts : list lact) : option lst :=
  match acts with
  | [] => Some s
  | a :: acts => match lstep strict s a with None => None | Some s => lrun strict s acts end
  end.
