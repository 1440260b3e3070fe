(** sbox.ReadMany with every kind of destination (sbox/result.go:42-203); SboxModel.v has it for a pointer to a slice.

    Simplifications, besides those of SboxModel.v. Arrays passed by value are left out, and so are slices of slices
    (passed by value) of anything but numbers and strings. reflect.Value.Len of a pointer panics. The text of the log
    is left out. *)
From Coq Require Import ZArith List Bool Arith.
Import ListNotations.
From Verif Require Import Base PrimModel CodecModel SboxModel.
Open Scope Z_scope.

(** the argument v of ReadMany, and what it refers to; sbox/result.go:42, 63-83 *)
Inductive dest :=
| Var (t : ty) (old : val t)                    (* &x, x of type t *)
| Ptrs (t : ty) (old : list (option (val t)))   (* []*t *)
| Slices (e : ty) (old : list (list (val e)))   (* [][]e *)
| Ifaces (n : nat)                              (* []interface{} of n values, or a pointer to one *)
| Other.                                        (* anything else *)
(** what ReadMany returns, and the destination after it *)
Record got := mkGot { g_dest : dest; g_read : Z; g_total : Z; g_err : option rerr; g_alloc : list Z }.

(** the loops of readFixedArray, readArray and readSlice, sbox/result.go:92-96, 122-126, 156-160: at most [k] tuples
    into the elements [old], of which each is read by [f]; the elements, how many were read *)
Fixpoint fill {A} (f : A -> rpair -> out (A * bool * rpair)) (k : Z) (old : list A) (n : Z) (r : rpair) : out (list A * Z * rpair) :=
  match old with
  | [] => Ok ([], n, r)
  | x :: old =>
      if k <=? 0 then Ok (x :: old, n, r)
      else
        do! (y, e, r) <- f x r;
        if e : bool then Ok (y :: old, n, r)
        else do! (ys, n, r) <- fill f (k - 1) old (n + 1) r; Ok (y :: ys, n, r)
  end.
(** oneTuple without a reader: it is looked up after the header was read, sbox/result.go:182-196 *)
Definition one_var (t : ty) (old : val t) (r : rpair) : out (val t * bool * rpair) :=
  do! (x, e, r) <- one_tuple t old r;
  if e : bool then Ok (x, true, r) else match Sz true t with None => Panic | Some _ => Ok (x, false, r) end.
(** oneTuple(r, v.Index(i), rd) where [rd] is the reader of the slice v, not of its elements (sbox/result.go:89,
    93): the header of the tuple, then sliceAuto of an element that is a pointer: reflect.MakeSlice of the type
    of the pointer panics, sbox/reader.go:97-101 *)
Definition one_ptr {A} (old : A) (r : rpair) : out (A * bool * rpair) :=
  match r_err (r0 r) with
  | Some _ => Ok (old, true, r)
  | None =>
      do! (sz, s) <- r_u32 (mkSt (r0 r) (r_al r));
      do! (b, s) <- call (RSlice (sz + 4)) s;
      if failed s then Ok (old, true, mkR2 (s_rd s) (mkRd (nums b) (r_err (r1 r))) (s_alloc s)) else Panic
  end.
(** the same for elements of type []e: sliceAuto makes the slice, and reads each field with the reader of []e into an
    element of type e, which panics (reflect.Value.Len or Set or SetLen of a number or string) unless an error stands;
    sbox/reader.go:97-109, marshal/reader_reflect.go:445-472, 849-885, 930-955 *)
Definition one_slice (e : ty) (old : list (val e)) (r : rpair) : out (list (val e) * bool * rpair) :=
  match r_err (r0 r) with
  | Some _ => Ok (old, true, r)
  | None =>
      do! (sz, s) <- r_u32 (mkSt (r0 r) (r_al r));
      do! (b, s) <- call (RSlice (sz + 4)) s;
      if failed s then Ok (old, true, mkR2 (s_rd s) (mkRd (nums b) (r_err (r1 r))) (s_alloc s))
      else
        do! (l, q) <- r_u32 (mkSt (mkRd (nums b) (r_err (r1 r))) (s_alloc s));
        do! (x, q) <- make_slice e l q;
        if (l =? 0) || failed q then Ok (x, false, mkR2 (s_rd s) (s_rd q) (s_alloc q)) else Panic
  end.
(** bookkeeping: the result of a loop *)
Definition gave {A} (f : A -> dest) (total : Z) (x : out (A * Z * rpair)) : out got :=
  do! (l, n, r) <- x; Ok (mkGot (f l) n total (r_err (r0 r)) (r_al r)).
(** readSlice, sbox/result.go:138-161 *)
Definition read_slice (t : ty) (total : Z) (s : st) : out got :=
  match Sz true t with
  | None => Panic
  | Some _ =>
      if readable t then
        do! (l, s) <- make_slice t total s;
        gave (Var (TSl t)) total (fill (one_tuple t) total l 0 (mkR2 (s_rd s) (mkRd [] None) (s_alloc s)))
      else Panic
  end.
(** readArray, sbox/result.go:106-127 *)
Definition read_array (n : nat) (t : ty) (old : list (val t)) (total : Z) (s : st) : out got :=
  match Sz true t with
  | None => Panic
  | Some _ =>
      if readable t then gave (Var (TArr n t)) total (fill (one_tuple t) total old 0 (mkR2 (s_rd s) (mkRd [] None) (s_alloc s)))
      else Panic
  end.
(** readInterface with a pointer, sbox/result.go:65-77 *)
Definition read_var (t : ty) : val t -> Z -> st -> out got :=
  match t return val t -> Z -> st -> out got with
  | TArr n e => read_array n e
  | TSl e => fun _ => read_slice e
  | TVar _ => fun _ _ _ => Panic
  | t => fun old total s =>
      do! (x, e, r) <- one_var t old (mkR2 (s_rd s) (mkRd [] None) (s_alloc s));
      Ok (mkGot (Var t x) 1 total (r_err (r0 r)) (r_al r))
  end.
(** readInterface, sbox/result.go:63-104, 170-180. An element of an []interface{} has the Kind Interface, for which
    readInterface has no case *)
Definition read_interface (d : dest) (total : Z) (s : st) : out got :=
  let r := mkR2 (s_rd s) (mkRd [] None) (s_alloc s) in
  match d with
  | Var t old => read_var t old total s
  | Ptrs t old =>
      match Sz true (TSl (TPtr t)) with
      | None => Panic
      | Some _ => gave (Ptrs t) total (fill one_ptr total old 0 r)
      end
  | Slices e old =>
      match e with
      | TNum _ | TStr => gave (Slices e) total (fill (one_slice e) total old 0 r)
      | _ => Panic      (* not modelled *)
      end
  | Ifaces n => if (0 <? Z.of_nat n) && (0 <? total) then Panic else Ok (mkGot (Ifaces n) 0 total (r_err (r0 r)) (r_al r))
  | Other => Panic
  end.
(** ReadMany, sbox/result.go:42-61 *)
Definition ReadManyInto (d : dest) (b : list Z) : out got :=
  do! (total, s) <- r_u32 (mkSt (mkRd b None) []);
  read_interface d total s.
