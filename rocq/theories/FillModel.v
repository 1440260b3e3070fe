(** Model of what Fill computes for a type: the static part of a codec (Sz, Cnt, whether SzGet is set, the fields kept), on top of
    the registries of RegModel.v (marshal/writer_reflect.go:225-254, 374-855; marshal/reader_reflect.go:351-380, 559-1178).

    A codec is created with Sz = -1 (writer_reflect.go:249, reader_reflect.go:375) and gets its values at the end of Fill, from those
    that the codecs of its elements and fields have by then; the codec of a type that is still being filled, because the type
    contains itself, has the values it was created with. [pend] is what is known of a type before its Fill ends, [fin] what Fill
    computes. Simplification: Fill reads the values of a field when it comes to the field; the model reads all of them at the
    end. This is the same: the values of a codec change only at the end of its own Fill, and no Fill that is under way when the
    field is read ends before this one. *)
From Coq Require Import List Bool Arith.
Import ListNotations.
From Verif Require Import RegModel.

Section Fill.
Variable prog : nat -> list instr.
Variable info : Type.
Variable pend : nat -> info.
Variable fin : nat -> list info -> info.
(** the registry (RegModel.v) and what Fill stored in each codec: marshal/writer_reflect.go:229-254, 374-530 *)
Definition ist := (st * (nat -> info))%type.
(** the empty registry, marshal/writer_reflect.go:225-227 *)
Definition i_init : ist := (s_init, fun _ => pend 0).
(** the values of the codecs after a step of goroutine k; marshal/writer_reflect.go:246-254, 374-530 *)
Definition fill (s : st) (f : nat -> info) (e : ev) : nat -> info :=
  match e with
  | Go k =>
      match pcs s k with
      | PCopy t => upd f (nxt s) (pend t)                                                        (* &TWriter{Type: rt, Sz: -1, Cnt: -1} *)
      | PBuild _ _ =>
          match stk s with
          | (t1, o1, []) :: _ => upd f o1 (fin t1 (map f (refs s o1)))                           (* the end of Fill *)
          | (t1, o1, Need t2 :: _) :: _ => match wss s t2 with None => upd f (nxt s) (pend t2) | Some _ => f end
          | _ => f
          end
      | _ => f
      end
  | Call _ _ => f
  end.
(** a step of the registry with its effect on the codecs, marshal/writer_reflect.go:229-254 *)
Definition istep (x : ist) (e : ev) : list obs * ist := let '(s, f) := x in let '(o, s') := step prog s e in (o, (s', fill s f e)).
(** bookkeeping: a schedule *)
Fixpoint irun (x : ist) (es : list ev) : list obs * ist :=
  match es with
  | [] => ([], x)
  | e :: es => let '(o, x) := istep x e in let '(o', x') := irun x es in (o ++ o', x')
  end.
(** bookkeeping: a schedule from the initial state *)
Definition istart (es : list ev) : list obs * ist := irun i_init es.
End Fill.
