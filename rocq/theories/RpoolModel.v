(** Model of marshal.Read and marshal.ReadTail with the pool readerPool (marshal/marshal.go:70-92), and of sbox.ReadFirst and
    sbox.ReadMany with the one-place cache readerCache (sbox/result.go:13-60), called by any number of goroutines.

    A pair of Readers is an object of the heap; marshal.go uses the first one only. Simplifications: what is read from the Reader and
    done to it (r.Read, ReadRawTuple, readInterface) is an arbitrary program of steps on the Readers the call has, ending with a
    result or a panic; CodecModel.v and SboxModel.v say which. sync.Pool may give back any Reader put into it or make a new one,
    and may drop Readers at any time. *)
From Coq Require Import List Bool Arith ZArith.
Import ListNotations.
From Verif Require Import Base PrimModel.
Open Scope nat_scope.

(** [2]marshal.Reader of sbox/result.go:13; marshal uses the first *)
Definition pair := (rd * rd)%type.
(** marshal/marshal.go:69-74 *)
Definition blank : rd := mkRd [] None.                           (* Reader{} *)
(** what a call does with its Readers: marshal/marshal.go:76-92, sbox/result.go:15-61 *)
Inductive dec (A : Type) :=
| DRet (a : A)
| DBoom
| DStep (f : pair -> pair) (g : pair -> dec A).                  (* the Readers become (f r), and it goes on with (g r) *)
Arguments DRet {A} a. Arguments DBoom {A}. Arguments DStep {A} f g.
(** marshal.Read and ReadTail (marshal/marshal.go:76-92), or ReadFirst and ReadMany (sbox/result.go:15-61) *)
Inductive fn := Marshal | Sbox.
Inductive pc (A : Type) :=
| PNew
| MGet (b : list Z) (d : dec A)                (* marshal.go:79 *)
| MSet (o : nat) (b : list Z) (d : dec A)      (* :80 *)
| MRun (o : nat) (d : dec A)                   (* :81 *)
| MClr (o : nat) (a : A)                       (* :82 *)
| MPut (o : nat) (a : A)                       (* :83 *)
| SLoad (b : list Z) (d : dec A)               (* result.go:19 *)
| SCas (t : nat) (b : list Z) (d : dec A)      (* :20 *)
| SInit (o : nat) (b : list Z) (d : dec A)     (* :22 *)
| SNew (b : list Z) (d : dec A)                (* :26 *)
| SRun (o : nat) (d : dec A)                   (* :28-38 *)
| SStore (o : nat) (a : A)                     (* :39 *)
| PRet (a : A)
| PPanic.
Arguments PNew {A}. Arguments MGet {A} b d. Arguments MSet {A} o b d. Arguments MRun {A} o d. Arguments MClr {A} o a. Arguments MPut {A} o a.
Arguments SLoad {A} b d. Arguments SCas {A} t b d. Arguments SInit {A} o b d. Arguments SNew {A} b d. Arguments SRun {A} o d. Arguments SStore {A} o a.
Arguments PRet {A} a. Arguments PPanic {A}.
(** readerPool (marshal/marshal.go:70-74) and readerCache (sbox/result.go:12-13), and where the callers are *)
Record st (A : Type) := mkSt { objs : nat -> pair; nxt : nat; pool : list nat; cache : option nat; pcs : nat -> pc A }.
Arguments mkSt {A} objs nxt pool cache pcs. Arguments objs {A} s. Arguments nxt {A} s. Arguments pool {A} s. Arguments cache {A} s. Arguments pcs {A} s.
(** bookkeeping: what can be observed from outside *)
Inductive obs (A : Type) :=
| QCall (k : nat) (f : fn) (b : list Z) (d : dec A)
| QRet (k : nat) (a : A)
| QPanic (k : nat).
Arguments QCall {A} k f b d. Arguments QRet {A} k a. Arguments QPanic {A} k.
(** bookkeeping: the choices of the environment and of the scheduler *)
Inductive ev (A : Type) :=
| Call (k : nat) (f : fn) (b : list Z) (d : dec A)
| Go (k : nat) (c : option nat)                (* c: which Reader of the pool Get returns, None: a new one *)
| Drop (i : nat).
Arguments Call {A} k f b d. Arguments Go {A} k c. Arguments Drop {A} i.
(** bookkeeping: a function changed at one argument *)
Definition upd {B} (f : nat -> B) (k : nat) (v : B) : nat -> B := fun i => if i =? k then v else f i.
(** var readerCache = &[2]marshal.Reader{}: object 0; marshal/marshal.go:69-74, sbox/result.go:13 *)
Definition s_init {A} : st A := mkSt (fun _ => (blank, blank)) 1 [] (Some 0) (fun _ => PNew).
(** bookkeeping: a list without its n-th element *)
Fixpoint remove_nth {B} (n : nat) (l : list B) : list B :=
  match l, n with [], _ => [] | _ :: l, O => l | x :: l, S n => x :: remove_nth n l end.
Section Step.
Context {A : Type}.
(** bookkeeping: observations and the state after a step *)
Definition result := (list (obs A) * st A)%type.
(** bookkeeping: a step without observation *)
Definition ok (s : st A) : result := ([], s).
(** bookkeeping: the state with one component replaced; the assignments of the steps below *)
Definition w_pc (s : st A) k v := mkSt (objs s) (nxt s) (pool s) (cache s) (upd (pcs s) k v).
Definition w_obj (s : st A) o v := mkSt (upd (objs s) o v) (nxt s) (pool s) (cache s) (pcs s).
Definition w_cache (s : st A) c := mkSt (objs s) (nxt s) (pool s) c (pcs s).
(** new(Reader), marshal/marshal.go:70-74 *)
Definition alloc (s : st A) (v : pair) : st A := mkSt (upd (objs s) (nxt s) v) (S (nxt s)) (pool s) (cache s) (pcs s).
(** readerPool.Get; marshal/marshal.go:70-92 *)
Definition get_pool (s : st A) (c : option nat) : nat * st A :=
  match match c with Some i => nth_error (pool s) i | None => None end, c with
  | Some o, Some i => (o, mkSt (objs s) (nxt s) (remove_nth i (pool s)) (cache s) (pcs s))
  | _, _ => (nxt s, alloc s (blank, blank))
  end.
(** one step of Read or ReadTail (marshal/marshal.go:76-92), or of ReadFirst or ReadMany (sbox/result.go:15-61) *)
Definition step (s : st A) (e : ev A) : result :=
  match e with
  | Call k f b d => match pcs s k with PNew => ([QCall k f b d], w_pc s k (match f with Marshal => MGet b d | Sbox => SLoad b d end)) | _ => ok s end
  | Go k c =>
      match pcs s k with
      | MGet b d => let '(o, s) := get_pool s c in ok (w_pc s k (MSet o b d))
      | MSet o b d => ok (w_pc (w_obj s o (mkRd b (r_err (fst (objs s o))), snd (objs s o))) k (MRun o d))     (* r.Body = b *)
      | MRun o d =>
          match d with
          | DRet a => ok (w_pc s k (MClr o a))
          | DBoom => ([QPanic k], w_pc s k PPanic)
          | DStep f g => ok (w_pc (w_obj s o (f (objs s o))) k (MRun o (g (objs s o))))
          end
      | MClr o a => ok (w_pc (w_obj s o (blank, blank)) k (MPut o a))      (* *r = Reader{}; this Reader has no second one *)
      | MPut o a => ([QRet k a], w_pc (mkSt (objs s) (nxt s) (o :: pool s) (cache s) (pcs s)) k (PRet a))
      | SLoad b d => ok (w_pc s k (match cache s with Some t => SCas t b d | None => SNew b d end))
      | SCas t b d =>
          match cache s with
          | Some t' => if t' =? t then ok (w_pc (w_cache s None) k (SInit t b d)) else ok (w_pc s k (SNew b d))
          | None => ok (w_pc s k (SNew b d))
          end
      | SInit o b d => ok (w_pc (w_obj s o (mkRd b None, blank)) k (SRun o d))
      | SNew b d => ok (w_pc (alloc s (mkRd b None, blank)) k (SRun (nxt s) d))
      | SRun o d =>
          match d with
          | DRet a => ok (w_pc s k (SStore o a))
          | DBoom => ([QPanic k], w_pc s k PPanic)
          | DStep f g => ok (w_pc (w_obj s o (f (objs s o))) k (SRun o (g (objs s o))))
          end
      | SStore o a => ([QRet k a], w_pc (w_cache s (Some o)) k (PRet a))
      | _ => ok s
      end
  | Drop i => ok (mkSt (objs s) (nxt s) (remove_nth i (pool s)) (cache s) (pcs s))
  end.
(** bookkeeping: a schedule, event by event *)
Fixpoint run (s : st A) (es : list (ev A)) : result :=
  match es with
  | [] => ([], s)
  | e :: es => let '(o, s) := step s e in let '(o', s') := run s es in (o ++ o', s')
  end.
(** bookkeeping: a schedule from the initial state *)
Definition start (es : list (ev A)) : result := run s_init es.
End Step.
