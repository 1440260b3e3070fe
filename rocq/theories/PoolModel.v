(** Model of marshal.Write and marshal.WriteTail (marshal/marshal.go:94-114) called by any number of goroutines, with the pool
    writerPool they share, and of the nested Writers of TWriter.WithSize (marshal/writer_reflect.go:269-324) with the channel
    twriters they share. Writers are those of PrimModel.v: buffer, arrays, Written.

    Simplifications. What w.Write(i) does to the Writer is given as a list of actions: primitive writes, values written with
    their size when the size is not known beforehand, and panics (of log.Panicf or of the user's methods). Which actions a value
    leads to is CodecModel.v. The arrays of a Writer are numbered per Writer: an array made by one is never seen by another.
    sync.Pool may give back any Writer put into it or make a new one, and may drop Writers at any time. *)
From Coq Require Import List Bool Arith ZArith.
Import ListNotations.
From Verif Require Import Base PrimModel.
Open Scope nat_scope.

(** what a value makes a Writer do: a primitive write (marshal/writer.go:24-281), a value behind its size, or a panic
    (marshal/writer_reflect.go:14-93, 269-324) *)
Inductive act :=
| Emit (c : wcall)
| Sized (sz : nat -> wcall) (body : list act)      (* WithSize of a value whose Size is negative, writer_reflect.go:311-323 *)
| Boom.
(** what a frame has left to do: actions of the value, and the end of a WithSize: w.Bytes(body) and puttwriter(tw); marshal/writer_reflect.go:303-324 *)
Inductive item := IAct (a : act) | ICopy (o : nat) (s : slice) | IPut (o : nat).
(** a Writer in use, marshal/writer_reflect.go:303-324, marshal/marshal.go:100-114 *)
Record frame := mkF { f_obj : nat; f_items : list item; f_size : nat -> wcall }.   (* f_size: szwr of the WithSize the Writer was taken for *)
Inductive pc :=
| PNew
| PGet (acts : list act)          (* marshal.go:101 *)
| PRun (fs : list frame)          (* :102, innermost Writer first; with the last frame done :103 *)
| PPut (o : nat) (s : slice)      (* :104 *)
| PRet (o : nat) (s : slice)      (* returned: the caller has the slice *)
| PPanic.
(** the pool of marshal/marshal.go:94-98 and the channel of marshal/writer_reflect.go:271-276 *)
Record st := mkSt { objs : nat -> writer; nxt : nat; pool : list nat; chan : list nat; pcs : nat -> pc }.
(** bookkeeping: a function changed at one argument *)
Definition upd {A} (f : nat -> A) (k : nat) (v : A) : nat -> A := fun i => if i =? k then v else f i.
(** empty pool and channel, marshal/marshal.go:94-98 *)
Definition s_init : st := mkSt (fun _ => w_new 0) 0 [] [] (fun _ => PNew).
(** bookkeeping: the state with one component replaced; the assignments of the steps below *)
Definition w_pc s k v := mkSt (objs s) (nxt s) (pool s) (chan s) (upd (pcs s) k v).
Definition w_obj s o v := mkSt (upd (objs s) o v) (nxt s) (pool s) (chan s) (pcs s).

(** bookkeeping: what can be observed from outside *)
Inductive obs :=
| QCall (k : nat) (acts : list act)       (* goroutine k calls Write *)
| QRet (k o : nat) (s : slice)            (* the call returns the slice s of the arrays of Writer o *)
| QPanic (k : nat)
| QPoke (k : nat).                        (* the caller of k changed a byte of its result *)
(** bookkeeping: the choices of the environment and of the scheduler *)
Inductive ev :=
| Call (k : nat) (acts : list act)
| Go (k : nat) (c : option nat)           (* c: which Writer of the pool Get returns, None: a new one *)
| Drop (i : nat)                          (* the pool forgets a Writer *)
| Poke (k i : nat) (v : Z).               (* the caller writes into its result *)
(** bookkeeping: observations and the state after a step *)
Definition result := (list obs * st)%type.
(** bookkeeping: a step without observation *)
Definition ok (s : st) : result := ([], s).
(** bookkeeping: a list without its n-th element *)
Fixpoint remove_nth {A} (n : nat) (l : list A) : list A :=
  match l, n with [], _ => [] | _ :: l, O => l | x :: l, S n => x :: remove_nth n l end.
(** a new Writer: marshal.go:95-97 with 512, writer_reflect.go:316 with 128 *)
Definition alloc (s : st) (d : Z) : nat * st := (nxt s, mkSt (upd (objs s) (nxt s) (w_new d)) (S (nxt s)) (pool s) (chan s) (pcs s)).
(** writerPool.Get, marshal.go:101 *)
Definition get_pool (s : st) (c : option nat) : nat * st :=
  match match c with Some i => nth_error (pool s) i | None => None end, c with
  | Some o, Some i => (o, mkSt (objs s) (nxt s) (remove_nth i (pool s)) (chan s) (pcs s))
  | _, _ => alloc s 512
  end.
(** the select of writer_reflect.go:313-317 *)
Definition get_chan (s : st) : nat * st :=
  match chan s with
  | o :: ch => (o, mkSt (objs s) (nxt s) (pool s) ch (pcs s))
  | [] => alloc s 128
  end.
(** puttwriter, writer_reflect.go:271-276 *)
Definition put_chan (s : st) (o : nat) : st :=
  if length (chan s) <? 512 then mkSt (objs s) (nxt s) (pool s) (chan s ++ [o]) (pcs s) else s.
(** a primitive write; marshal/writer.go:44-175 *)
Definition write (s : st) (k o : nat) (c : wcall) (fs : list frame) : result :=
  match w_call (objs s o) c with
  | Some w => ok (w_pc (w_obj s o w) k (PRun fs))
  | None => ([QPanic k], w_pc s k PPanic)
  end.
Definition step_run (s : st) (k : nat) (fs : list frame) : result :=
  match fs with
  | [] => ok s
  | mkF o [] _ :: [] => let '(w, sl) := w_Written (objs s o) in ok (w_pc (w_obj s o w) k (PPut o sl))   (* marshal.go:103 *)
  | mkF o [] sz :: mkF p its sz' :: fs =>                                                              (* writer_reflect.go:319-322 *)
      let '(w, sl) := w_Written (objs s o) in
      ok (w_pc (w_obj s o w) k (PRun (mkF p (IAct (Emit (sz (s_len sl))) :: ICopy o sl :: IPut o :: its) sz' :: fs)))
  | mkF o (IAct (Emit c) :: its) sz :: fs => write s k o c (mkF o its sz :: fs)
  | mkF o (IAct (Sized sz' body) :: its) sz :: fs =>
      let '(o', s) := get_chan s in ok (w_pc s k (PRun (mkF o' (map IAct body) sz' :: mkF o its sz :: fs)))
  | mkF o (IAct Boom :: its) sz :: fs => ([QPanic k], w_pc s k PPanic)
  | mkF o (ICopy o' sl :: its) sz :: fs => write s k o (WBytes (sl_bytes (w_mem (objs s o')) sl)) (mkF o its sz :: fs)
  | mkF o (IPut o' :: its) sz :: fs => ok (w_pc (put_chan s o') k (PRun (mkF o its sz :: fs)))
  end.
(** somebody stores into bytes that Write returned, marshal/marshal.go:100-106 *)
Definition poke (w : writer) (sl : slice) (i : nat) (v : Z) : writer :=
  mkWr (upd_nth (w_mem w) (s_arr sl) (overwrite (nth (s_arr sl) (w_mem w) []) (s_off sl + i) [v])) (w_buf w) (w_def w).
(** one step: Write or WriteTail begins (marshal/marshal.go:100-114), a primitive write, the begin or the end of a WithSize (marshal/writer_reflect.go:303-324), the return *)
Definition step (s : st) (e : ev) : result :=
  match e with
  | Call k acts => match pcs s k with PNew => ([QCall k acts], w_pc s k (PGet acts)) | _ => ok s end
  | Go k c =>
      match pcs s k with
      | PGet acts => let '(o, s) := get_pool s c in ok (w_pc s k (PRun [mkF o (map IAct acts) (fun n => IntUint32 (Z.of_nat n))]))
      | PRun fs => step_run s k fs
      | PPut o sl => ([QRet k o sl], w_pc (mkSt (objs s) (nxt s) (o :: pool s) (chan s) (pcs s)) k (PRet o sl))
      | _ => ok s
      end
  | Drop i => ok (mkSt (objs s) (nxt s) (remove_nth i (pool s)) (chan s) (pcs s))
  | Poke k i v =>
      match pcs s k with
      | PRet o sl => if i <? s_len sl then ([QPoke k], w_obj s o (poke (objs s o) sl i v)) else ok s
      | _ => ok s
      end
  end.
(** bookkeeping: a schedule, event by event *)
Fixpoint run (s : st) (es : list ev) : result :=
  match es with
  | [] => ([], s)
  | e :: es => let '(o, s) := step s e in let '(o', s') := run s es in (o ++ o', s')
  end.
(** bookkeeping: a schedule from the initial state *)
Definition start (es : list ev) : result := run s_init es.
