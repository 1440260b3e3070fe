(** How a value becomes the body of a request or of an answer, and how a body is read: SendMsgBody, Send, CallMsgBody and
    Call (request.go:235-264), Respond (request.go:155-163), and the methods of Body (request.go:266-295).

    Simplifications: those of CodecModel.v. What SendMsgBody and CallMsgBody do with the request and the channel (one answer,
    of which there is never a second, C27) is that of the machines of PairModel.v. *)
From Coq Require Import ZArith List Bool.
Import ListNotations.
From Verif Require Import Base PrimModel CodecModel CodecRead.
Open Scope Z_scope.

(** what is given to Call or Respond: a Body, or a value of another type; request.go:235, 249, 155 *)
Inductive data := DBody (b : list Z) | DVal (t : ty) (v : val t).
(** request.go:236-240, 250-254, 156-161 *)
Definition body_of (d : data) : out (list Z) := match d with DBody b => Ok b | DVal t v => Write t v end.
(** Body.Reader, request.go:272-275 *)
Definition Body_Reader (b : list Z) : rd := mkRd b None.
(** Body.Read, request.go:289-291, marshal/marshal.go:76-83 *)
Definition Body_Read (t : ty) (b : list Z) (old : val t) : out (val t * option rerr) :=
  do! (x, s) <- Read t old (st0 b []); Ok (x, r_err (s_rd s)).
(** Body.ReadTail, request.go:293-295, marshal/marshal.go:85-92 *)
Definition Body_ReadTail (t : ty) (b : list Z) (old : val t) : out (val t * option rerr) :=
  do! (x, s) <- ReadTail t old (st0 b []); Ok (x, r_err (s_rd s)).
(** Body.Read2, request.go:277-281: the body is read into itself. It is no pointer and no []uint8, so Read takes Fixed of its
    type (marshal/reader_reflect.go:169-173). The results are the Reader, the error and what the body holds then *)
Definition Body_Read2 (b : list Z) : out (rd * option rerr * list Z) :=
  do! (x, s) <- dec Fixed (TSl (TNum U8)) b (st0 b []); Ok (s_rd s, r_err (s_rd s), x).
(** Body.ReadTail2, request.go:283-287, marshal/reader_reflect.go:339-347 *)
Definition Body_ReadTail2 (b : list Z) : out (rd * option rerr * list Z) :=
  do! (x, s) <- dec Fixed (TSl (TNum U8)) b (st0 b []);
  let s := if zlen (r_body (s_rd s)) =? 0 then s else fail s (ECodec 4) in
  Ok (s_rd s, r_err (s_rd s), x).
