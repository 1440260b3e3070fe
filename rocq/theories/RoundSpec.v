(** What users of a MultiRequest rely on when they use it again, or give it a timeout. *)
From Coq Require Import List Bool Arith.
Import ListNotations.
From Verif Require Import MultiModel MultiSpec RoundModel.

(** the MultiRequest is not used again after Each *)
Fixpoint not_after_each (s : rs) (es : list rev) : Prop :=
  match es with
  | [] => True
  | e :: es => (e = Again -> chan (base s) = None) /\ match rstep s e with (_, Some s') => not_after_each s' es | _ => True end
  end.
(** the MultiRequest is used once *)
Definition once (es : list rev) : Prop := ~ In Again es.
(** the steps of the goroutines of the library *)
Definition rstuck (s : rs) : Prop := stuck (base s).
(** what happens without an answer from outside and without a call of Cancel or Expire by the user or the context: the
    library's own steps, the expiry of the timer, and the user setting the timeout again *)
Definition on_its_own (e : rev) : Prop :=
  match e with B e => internal e | SetTimeout | Fire _ => True | Again => False end.
(** a call of Results is waiting for responses *)
Definition waiting (s : rs) : Prop := op (base s) = RW.
(** the responses given out by Results, by all calls together *)
Definition given (t : list obs) : list nat := concat (results t).
(** the goroutine using the MultiRequest is in no call *)
Definition idle (s : rs) : Prop := op (base s) = O0 \/ op (base s) = OEnd.
(** SetTimeout was called with a positive duration, between other calls *)
Definition had_timeout (es : list rev) : Prop := exists a b t s, es = a ++ SetTimeout :: b /\ rrun r_init a = (t, Some s) /\ idle s.
(** the timer expires with this event: the MultiRequest's Expire is called *)
Definition expires (s : rs) (e : rev) : Prop := exists k o s', e = Fire k /\ rstep s e = (o, Some s') /\ kp (base s) k = KIdle /\ kp (base s') k <> KIdle.
