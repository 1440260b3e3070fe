(** Vocabulary for the kinds of responses. *)
From Coq Require Import ZArith List.
Import ListNotations.
From Verif Require Import RequestModel.
Open Scope Z_scope.

(** the calls with which the library itself ends a request: Expire, Cancel, IOError, ShutDown *)
Definition giving_up (o : op) : Prop := In o [OExpire; OCancel; OIOError; OShutDown].
(** the call o completes the request, with this code and body *)
Definition answers (o : op) (code : Z) (body : option (list Z)) : Prop :=
  match body with Some b => o = ORespondBytes code b | None => o = ORespondFail code end.
(** no call in p completes the request but those with which the library gives up *)
Definition only_gives_up (p : list op) : Prop :=
  forall o, In o p -> match o with ORespondBytes _ _ => False | ORespondFail _ => giving_up o | _ => True end.
