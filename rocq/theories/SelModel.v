(** The loop of ParallelService with its nested selects (parallel_service.go:49-86), on top of ParModel.v: where ParModel.v lets the
    loop choose among all that is ready, here it looks at the exit channel first, then tries the receive channel (or the slots)
    without waiting, and only then waits for both.

    Simplifications, besides those of ParModel.v. When Stop comes while the loop waits in the last select, the loop may still
    take a request (or a slot) that comes later; in the program it leaves. *)
From Coq Require Import List Bool Arith ZArith.
Import ListNotations.
From Verif Require Import ParModel.

(** which of the three selects is next: :50 and :71, :54 and :76, :60 and :79 *)
Inductive spt := S1 | S2 | S3.
(** the service of ParModel.v, and the place in its selects, parallel_service.go:37-43 *)
Record sst := mkSel { base : st; pt : spt }.
(** BF.New, parallel_service.go:17-35 *)
Definition s_init (n : nat) : sst := mkSel (p_init n) S1.
(** bookkeeping: observations and the state after a step *)
Definition sresult := (list obs * sst)%type.
(** bookkeeping: a step without observation *)
Definition sok (s : sst) : sresult := ([], s).
(** the loop does a step of ParModel.v (parallel_service.go:45-102) and is then before the first select of the next place *)
Definition take (s : sst) (e : ev) : sresult := let '(o, b) := step (base s) e in (o, mkSel b S1).
(** others do a step of ParModel.v (parallel_service.go:104-121, service.go:123-156): the place of the loop is as before *)
Definition keep (s : sst) (e : ev) : sresult := let '(o, b) := step (base s) e in (o, mkSel b (pt s)).
(** one step; the loop: parallel_service.go:49-69 at LTop, :71-86 at LGot *)
Definition sstep (s : sst) (e : ev) : sresult :=
  match e with
  | Exit =>
      match lp (base s), pt s with
      | LTop, S1 | LTop, S3 | LGot _, S1 | LGot _, S3 => if stp (base s) then take s Exit else sok s
      | _, _ => sok s
      end
  | Recv =>
      match lp (base s), pt s with
      | LTop, S2 | LTop, S3 | LDrain, _ => match q (base s) with [] => sok s | _ :: _ => take s Recv end
      | _, _ => sok s
      end
  | Loop =>
      match lp (base s), pt s with
      | LTop, S1 | LGot _, S1 => if stp (base s) then sok s else sok (mkSel (base s) S2)
      | LTop, S2 => match q (base s) with [] => sok (mkSel (base s) S3) | _ :: _ => sok s end
      | LTop, S3 | LDrain, _ => sok s
      | LGot _, S2 => match sema (base s) with 0 => sok (mkSel (base s) S3) | S _ => take s Loop end
      | LGot _, S3 => match sema (base s) with 0 => sok s | S _ => take s Loop end
      | LSem _, _ | LBack, _ | LAns _, _ => take s Loop
      end
  | _ => keep s e
  end.
(** bookkeeping: a schedule, event by event *)
Fixpoint srun (s : sst) (es : list ev) : sresult :=
  match es with
  | [] => ([], s)
  | e :: es => let '(o, s) := sstep s e in let '(o', s') := srun s es in (o ++ o', s')
  end.
