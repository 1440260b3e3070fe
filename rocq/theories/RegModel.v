(** Model of the registries of codecs: WriterFor and _writer (marshal/writer_reflect.go:225-254), ReaderFor and _reader
    (marshal/reader_reflect.go:351-380), and their copies writer, _writer (sbox/writer.go:80-109) and reader, _reader
    (sbox/reader.go:49-78). The four are the same program; the names below are those of the first. Any number of goroutines
    ask for the codecs of any types. One step is one access to the variable ws, one operation on the mutex, or one call of
    _writer made by Fill.

    Simplifications. A type is a number and so is a codec (a *TWriter). What Fill does for a type (writer_reflect.go:374-530,
    532-855) is reduced to a list of instructions: it asks _writer for the types of elements and fields, in order, and it may
    panic (log.Panicf: unsupported kinds, bad tags). The variable ws is read and written atomically (the program reads it
    without the lock). A finished map is a value: a map that ws points to is never written to, as _writer writes to wss, which
    WriterFor sets to a new map before. In sbox the call of marshal.WriterFor before Fill can panic as well; it is an
    instruction of that type. *)
From Coq Require Import List Bool Arith.
Import ListNotations.

(** what Fill of a type does: it asks for another codec, or panics; marshal/writer_reflect.go:374-530 *)
Inductive instr := Need (t : nat) | Fail.
(** marshal/writer_reflect.go:246-254 *)
Definition frame := (nat * nat * list instr)%type.   (* the type, its codec, and what is left of its Fill *)
(** where a goroutine is *)
Inductive pc :=
| PNew
| PLoad (t : nat)            (* writer_reflect.go:231 *)
| PLock (t : nat)            (* :232 *)
| PCheck (t : nat)           (* :234, with the lock *)
| PCopy (t : nat)            (* :235-238, and in :239 the lookup and the new codec of _writer, :247-250 *)
| PBuild (t o : nat)         (* :239, in Fill *)
| PFail (t : nat)            (* panicking, before the deferred Unlock *)
| PUnl (t o : nat)           (* returning, before the deferred Unlock *)
| PRet
| PPanic.
(** the variables ws, wss, wsL of marshal/writer_reflect.go:225-227 (rs, rss, rsL of reader_reflect.go:351-353, and those of sbox/writer.go:80-82, sbox/reader.go:49-51), and where the callers are *)
Record st := mkSt {
  ws : nat -> option nat; wss : nat -> option nat;
  lock : option nat;
  nxt : nat;                       (* the number of codecs made so far *)
  full : nat -> bool;              (* Fill of the codec has returned *)
  refs : nat -> list nat;          (* the codecs it points to: Elem, Flds *)
  stk : list frame;                (* the calls of Fill under way, innermost first *)
  pcs : nat -> pc }.
(** bookkeeping: a function changed at one argument *)
Definition upd {A} (f : nat -> A) (k : nat) (v : A) : nat -> A := fun i => if i =? k then v else f i.
(** the empty maps, marshal/writer_reflect.go:225-227 *)
Definition s_init : st := mkSt (fun _ => None) (fun _ => None) None 0 (fun _ => false) (fun _ => []) [] (fun _ => PNew).
(** bookkeeping: the state with one component replaced; the assignments of the steps below *)
Definition w_pc s k v := mkSt (ws s) (wss s) (lock s) (nxt s) (full s) (refs s) (stk s) (upd (pcs s) k v).
Definition w_lock s v := mkSt (ws s) (wss s) v (nxt s) (full s) (refs s) (stk s) (pcs s).

(** bookkeeping: what can be observed from outside *)
Inductive obs :=
| OCall (k t : nat)        (* goroutine k asks for the codec of type t *)
| ORet (k t o : nat)       (* it gets codec o *)
| OPanic (k t : nat).      (* the call panics *)
(** bookkeeping: the choices of the environment and of the scheduler *)
Inductive ev := Call (k t : nat) | Go (k : nat).
(** bookkeeping: observations and the state after a step *)
Definition result := (list obs * st)%type.
(** bookkeeping: a step without observation *)
Definition ok (s : st) : result := ([], s).

Section Types.
Variable prog : nat -> list instr.   (* what Fill of a type does *)
(** writer_reflect.go:246-254 for a type that is not in wss: the codec is entered before it is filled *)
Definition push (s : st) (m : nat -> option nat) (t : nat) (rs : nat -> list nat) (rest : list frame) : st :=
  mkSt (ws s) (upd m t (Some (nxt s))) (lock s) (S (nxt s)) (full s) rs ((t, nxt s, prog t) :: rest) (pcs s).
Definition step_build (s : st) (k t o : nat) : result :=
  match stk s with
  | [] => ok (mkSt (wss s) (wss s) (lock s) (nxt s) (full s) (refs s) [] (upd (pcs s) k (PUnl t o)))   (* :240 *)
  | (t1, o1, []) :: rest => ok (mkSt (ws s) (wss s) (lock s) (nxt s) (upd (full s) o1 true) (refs s) rest (pcs s))
  | (t1, o1, Fail :: p) :: rest => ok (w_pc s k (PFail t))
  | (t1, o1, Need t2 :: p) :: rest =>
      match wss s t2 with
      | Some o2 => ok (mkSt (ws s) (wss s) (lock s) (nxt s) (full s) (upd (refs s) o1 (refs s o1 ++ [o2])) ((t1, o1, p) :: rest) (pcs s))
      | None => ok (push s (wss s) t2 (upd (refs s) o1 (refs s o1 ++ [nxt s])) ((t1, o1, p) :: rest))
      end
  end.
(** one step of WriterFor or _writer, marshal/writer_reflect.go:229-254 *)
Definition step (s : st) (e : ev) : result :=
  match e with
  | Call k t => match pcs s k with PNew => ([OCall k t], w_pc s k (PLoad t)) | _ => ok s end
  | Go k =>
      match pcs s k with
      | PLoad t => match ws s t with Some o => ([ORet k t o], w_pc s k PRet) | None => ok (w_pc s k (PLock t)) end
      | PLock t => match lock s with None => ok (w_pc (w_lock s (Some k)) k (PCheck t)) | Some _ => ok s end
      | PCheck t => match ws s t with Some o => ok (w_pc s k (PUnl t o)) | None => ok (w_pc s k (PCopy t)) end
      | PCopy t => ok (w_pc (push s (ws s) t (refs s) []) k (PBuild t (nxt s)))
      | PBuild t o => step_build s k t o
      | PFail t => ([OPanic k t], w_pc (w_lock s None) k PPanic)
      | PUnl t o => ([ORet k t o], w_pc (w_lock s None) k PRet)
      | _ => ok s
      end
  end.
(** bookkeeping: a schedule, event by event *)
Fixpoint run (s : st) (es : list ev) : result :=
  match es with
  | [] => ([], s)
  | e :: es => let '(o, s) := step s e in let '(o', s') := run s es in (o ++ o', s')
  end.
(** bookkeeping: a schedule from the initial state *)
Definition start (es : list ev) : result := run s_init es.
End Types.
