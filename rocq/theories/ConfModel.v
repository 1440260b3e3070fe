(** Model of net/client/config.go, of the use of the configuration by a client endpoint and its connections, and
    of the deadlines around network calls (net/slice_reader.go, net/buf_writer.go).
    Strings are lists of bytes, durations and times are integers (nanoseconds, no overflow). *)
From Coq Require Import ZArith List Bool.
Import ListNotations.
From Verif Require Import Base.
Open Scope Z_scope.

(** ServerConfig, net/client/config.go:11-27. RetCodeType is a number, net/consts.go:10-16. *)
Record config := mkCfg { c_network : list Z; c_address : list Z; c_name : list Z; c_conns : Z;
  c_dial : Z; c_read : Z; c_write : Z; c_ping : Z; c_rct : Z; c_timeout : Z }.

(** time.Second, net/client/config.go:29-31 *)
Definition second : Z := 10 ^ 9.
(** "tcp", "unix", ":"; net/client/config.go:33-64 *)
Definition s_tcp : list Z := [116; 99; 112].
(** "unix", net/client/config.go:33-64 *)
Definition s_unix : list Z := [117; 110; 105; 120].
(** the rune of strings.ContainsRune, net/client/config.go:33-64 *)
Definition colon : Z := 58.
(** "", net/client/config.go:33-64 *)
Definition empty (s : list Z) : bool := match s with [] => true | _ => false end.

(** SetDefaults, net/client/config.go:33-65; None: log.Panic. strings.ContainsRune of an ASCII rune looks for the byte. *)
Definition SetDefaults (c : config) : option config :=
  if empty (c_address c) then None
  else
    let network := if empty (c_network c) then if existsb (Z.eqb colon) (c_address c) then s_tcp else s_unix else c_network c in
    let name := if empty (c_name c) then network ++ [colon] ++ c_address c else c_name c in
    let conns := if c_conns c <=? 0 then 1 else c_conns c in
    let ping := if c_ping c =? 0 then 1 * second else c_ping c in
    let dial := if c_dial c =? 0 then 5 * second else c_dial c in
    Some (mkCfg network (c_address c) name conns dial (c_read c) (c_write c) ping (c_rct c) (c_timeout c)).

(** What the endpoint made by NewServer and its connections use: net/client/server.go:55-85 (fields copied),
    net/client/connection/connection.go:101 and 104 (the dialer's Timeout is the package's constant, not the field),
    :111-112 (Init of reader and writer), :236-240 (a ping interval of 0 or less becomes an hour). *)
Record used := mkUsed { u_network : list Z; u_address : list Z; u_name : list Z; u_conns : Z;
  u_dial : Z; u_read : Z; u_write : Z; u_ping : Z; u_rct : Z; u_timeout : Z }.
(** net/client/server.go:55-86: what of the configuration an endpoint and its connections use; None: log.Panic in SetDefaults *)
Definition NewServer (c : config) : option used :=
  match SetDefaults c with
  | None => None
  | Some d => Some (mkUsed (c_network d) (c_address d) (c_name d) (c_conns d) (5 * second) (c_read d) (c_write d)
                      (if 0 <? c_ping d then c_ping d else 3600 * second) (c_rct d) (c_timeout d))
  end.

(** ** Deadlines *)
(** What a connection sees. The time is the one at which the call is made. net/slice_reader.go:72-91, net/buf_writer.go:86-105 *)
Inductive call := KDeadline (at_ : Z) (* SetReadDeadline(t) / SetWriteDeadline(t) *) | KClear (* ...(time.Time{}) *) | KIO (* Read / Write *).
(** SliceReader.read, net/slice_reader.go:71-91, and BufWriter.write, net/buf_writer.go:85-105: the fields timeout, d,
    dChecked. [can]: the connection is a SetDeadliner. [ok]: the network call returned no error. [t], [t']: the time
    at SetDeadline and at the network call. Returned: the calls made, with the time of each. *)
Record dl := mkDl { d_timeout : Z; d_d : bool; d_checked : bool }.
(** Init, net/header.go:27-30, 127-140: nothing is known about the connection yet *)
Definition dl_init (timeout : Z) : dl := mkDl timeout false false.
(** SliceReader.read and BufWriter.write: net/slice_reader.go:72-91, net/buf_writer.go:86-105 *)
Definition io (can : bool) (s : dl) (t t' : Z) (ok : bool) : dl * list (Z * call) :=
  if 0 <? d_timeout s then
    let s := if d_checked s then s else mkDl (d_timeout s) can true in
    (s, (if d_d s then [(t, KDeadline (t + d_timeout s))] else []) ++ [(t', KIO)] ++ (if ok && d_d s then [(t', KClear)] else []))
  else (s, [(t', KIO)]).
(** any number of network calls; net/slice_reader.go:72-91, net/buf_writer.go:86-105 *)
Fixpoint ios (can : bool) (s : dl) (l : list (Z * Z * bool)) : list (Z * call) :=
  match l with
  | [] => []
  | (t, t', ok) :: l => let (s, k) := io can s t t' ok in k ++ ios can s l
  end.
