(** Model of custom_timer.go: the timer heap.

    One heap (custom_timer.go:87-104). Every operation on it happens under its mutex, so a history is a
    list of critical sections: After (push), Stop (remove) and one iteration of the inner loop of
    [loop] (pop). Storage is an explicit array of cells with explicit indices, links and free list; an
    index outside the array, a nil Expirator or exhausted recursion fuel gives [None] (a panic or
    non-termination).

    Simplifications: indices and the size counter are not wrapped to 32 bits (that needs 2^32 live
    timers);
    Expirators are numbered, [ti x] is the field i of Expirator x's Timer. The choice of one of
    several heaps per Timer (nextHeap, getHeap: 50-76) is in HeapsModel.v, which also
    shows that one heap may be looked at alone. *)
From Coq Require Import ZArith List Bool Arith.
Import ListNotations.
Open Scope Z_scope.

(** tItem, custom_timer.go:79-85. *)
Record item := mkIt { ix : option nat; ie : Z; iupi : Z; idl : nat; iup : nat; idn : list nat }.
(** tItem{x: x, e: e} / tItem{up: up}; custom_timer.go:79-85 *)
Definition fresh (x : nat) (e : Z) : item := mkIt (Some x) e 0 0 0 [0;0;0;0]%nat.
(** a cell on the free list, custom_timer.go:238-241 *)
Definition freed (up : nat) : item := mkIt None 0 0 0 up [0;0;0;0]%nat.
(** tItem{}, custom_timer.go:79-85 *)
Definition zero_item : item := freed 0.

(** tHeap, custom_timer.go:87-96 (len, i, c are not used by the heap code) plus the Timer.i fields. *)
Record heap := mkH { cells : nat -> item; hlen : nat; size : Z; top : nat; free : nat; ti : nat -> nat }.

(** bookkeeping: a function changed at one argument *)
Definition fupd {A} (f : nat -> A) (i : nat) (v : A) : nat -> A := fun j => if Nat.eqb j i then v else f j.
(** bookkeeping: the state with one component replaced; the assignments of the steps below *)
Definition set_cells (h : heap) (c : nat -> item) : heap := mkH c (hlen h) (size h) (top h) (free h) (ti h).
(** h.h[i], bounds checked; custom_timer.go:137-293 *)
Definition get (h : heap) (i : nat) : option item := if Nat.ltb i (hlen h) then Some (cells h i) else None.
(** write a cell, bounds checked; custom_timer.go:137-293 *)
Definition put (h : heap) (i : nat) (v : item) : option heap :=
  if Nat.ltb i (hlen h) then Some (set_cells h (fupd (cells h) i v)) else None.

(** bookkeeping: sequencing; a panic ends the computation *)
Definition bind {A B} (a : option A) (f : A -> option B) : option B := match a with Some x => f x | None => None end.
Notation "'do' x <- a ; b" := (bind a (fun x => b)) (at level 200, x pattern, a at level 100, b at level 200).
(** bookkeeping: a run-time check *)
Definition check (b : bool) : option unit := if b then Some tt else None.

(** bookkeeping: a list with one element replaced *)
Fixpoint set_nth (l : list nat) (k : nat) (v : nat) : list nat :=
  match l, k with
  | [], _ => []
  | _ :: l, O => v :: l
  | x :: l, S k => x :: set_nth l k v
  end.
(** bookkeeping: an element of down, 0 outside *)
Definition dnth (it : item) (k : nat) : nat := nth k (idn it) 0%nat.

(** field updates of a cell; bookkeeping: the assignments of the steps below *)
Definition with_up (it : item) (u : nat) : item := mkIt (ix it) (ie it) (iupi it) (idl it) u (idn it).
Definition with_upi (it : item) (u : Z) : item := mkIt (ix it) (ie it) u (idl it) (iup it) (idn it).
Definition with_dn (it : item) (d : list nat) : item := mkIt (ix it) (ie it) (iupi it) (idl it) (iup it) d.
Definition with_dl (it : item) (n : nat) : item := mkIt (ix it) (ie it) (iupi it) n (iup it) (idn it).

(** the comparisons and swaps of sort4, custom_timer.go:267-291: e0..e3 follow the swaps *)
Definition sort4_arr {A} (a b c d : A * Z) : list A :=
  let '(a, b) := if snd b <? snd a then (b, a) else (a, b) in
  let '(a, b, c) :=
    if snd c <? snd b then
      let '(b, c) := (c, b) in
      let '(a, b) := if snd b <? snd a then (b, a) else (a, b) in (a, b, c)
    else (a, b, c) in
  let '(a, b, c, d) :=
    if snd d <? snd c then
      let '(c, d) := (d, c) in
      let '(a, b, c) :=
        if snd c <? snd b then
          let '(b, c) := (c, b) in
          let '(a, b) := if snd b <? snd a then (b, a) else (a, b) in (a, b, c)
        else (a, b, c) in (a, b, c, d)
    else (a, b, c, d) in
  [fst a; fst b; fst c; fst d].
(** the same for three children, custom_timer.go:206-219 *)
Definition sort3_arr {A} (a b c : A * Z) : list A :=
  let '(a, b) := if snd b <? snd a then (b, a) else (a, b) in
  let '(a, b, c) :=
    if snd c <? snd b then
      let '(b, c) := (c, b) in
      let '(a, b) := if snd b <? snd a then (b, a) else (a, b) in (a, b, c)
    else (a, b, c) in
  [fst a; fst b; fst c].

(** sort4(&h.h[at].down), custom_timer.go:262-293; [pu] is putUnder. *)
Definition sort4 (pu : heap -> nat -> nat -> option heap) (h : heap) (at_ : nat) : option heap :=
  do it <- get h at_;
  do i0 <- get h (dnth it 0); do i1 <- get h (dnth it 1);
  do i2 <- get h (dnth it 2); do i3 <- get h (dnth it 3);
  let arr := sort4_arr (dnth it 0, ie i0) (dnth it 1, ie i1) (dnth it 2, ie i2) (dnth it 3, ie i3) in
  do h <- put h at_ (with_dn it arr);
  do h <- pu h (nth 2 arr 0%nat) (nth 3 arr 0%nat);
  do h <- pu h (nth 1 arr 0%nat) (nth 2 arr 0%nat);
  pu h (nth 0 arr 0%nat) (nth 1 arr 0%nat).

(** putUnder, custom_timer.go:243-260 *)
Fixpoint put_under (fuel : nat) (h : heap) (upi downi : nat) : option heap :=
  match fuel with
  | O => None
  | S fuel =>
      do _ <- get h upi;
      do dn <- get h downi;
      do h <- put h downi (with_up dn upi);
      do up <- get h upi;
      if Nat.eqb (idl up) 4 then
        do h <- sort4 (put_under fuel) h upi;
        do up <- get h upi;
        do h <- put h upi (with_dn up (set_nth (set_nth (set_nth (idn up) 3 0) 2 0) 1 downi));
        do c0 <- get h (dnth up 0);
        do h <- put h (dnth up 0) (with_upi c0 0);
        do dn <- get h downi;
        do h <- put h downi (with_upi dn 1);
        do up <- get h upi;
        put h upi (with_dl up 2)
      else
        do _ <- check (Nat.ltb (idl up) 4);
        do h <- put h upi (with_dn up (set_nth (idn up) (idl up) downi));
        do dn <- get h downi;
        do h <- put h downi (with_upi dn (Z.of_nat (idl up)));
        do up <- get h upi;
        put h upi (with_dl up (S (idl up)))
  end.
(** fuel: one more than the number of cells; theorem C38 shows that it always suffices; custom_timer.go:243-260 *)
Definition put_under' (h : heap) (u d : nat) : option heap := put_under (S (hlen h)) h u d.

(** push, custom_timer.go:137-163. Returns the new heap and whether the loop is signalled. *)
Definition push (h : heap) (x : nat) (e : Z) : option (heap * bool) :=
  do h <- (if Nat.eqb (free h) 0 then
             (* append *)
             Some (mkH (fupd (cells h) (hlen h) (fresh x e)) (S (hlen h)) (size h) (top h) (free h)
                       (fupd (ti h) x (hlen h)))
           else
             do it <- get h (free h);
             Some (mkH (fupd (cells h) (free h) (fresh x e)) (hlen h) (size h) (top h) (iup it)
                       (fupd (ti h) x (free h))));
  let h := mkH (cells h) (hlen h) (size h + 1) (top h) (free h) (ti h) in
  let i := ti h x in
  if Nat.eqb (top h) 0 then
    Some (mkH (cells h) (hlen h) (size h) i (free h) (ti h), true)
  else
    do it <- get h i;
    do tp <- get h (top h);
    if ie it <=? ie tp then
      do h <- put_under' h i (top h);
      do it <- get h i;
      do tp <- get h (top h);
      Some (mkH (cells h) (hlen h) (size h) i (free h) (ti h), ie it <? ie tp)
    else
      do h <- put_under' h (top h) i;
      Some (h, false).

(** h.h[j].upi-- on a uint16; custom_timer.go:165-241 *)
Definition dec_upi (h : heap) (j : nat) : option heap :=
  do it <- get h j; put h j (with_upi it ((iupi it - 1) mod 2 ^ 16)).
(** h.h[i].down[k], custom_timer.go:165-260 *)
Definition dn_get (h : heap) (i k : nat) : option nat := do it <- get h i; Some (dnth it k).
(** h.h[i].down[k] = v, custom_timer.go:165-260 *)
Definition dn_set (h : heap) (i k v : nat) : option heap :=
  do it <- get h i;
  do _ <- check (Nat.ltb k 4);
  put h i (with_dn it (set_nth (idn it) k v)).
(** one arm of the switch at lines 176-191: up.down[k] = up.down[k+1]; h.h[up.down[k+1]].upi--; custom_timer.go:176-191 *)
Definition shift1 (h : heap) (u k : nat) : option heap :=
  do v <- dn_get h u (S k);
  do h <- dn_set h u k v;
  do v <- dn_get h u (S k);
  dec_upi h v.
(** custom_timer.go:176-191 *)
Definition shift_children (h : heap) (u : nat) (upi : Z) : option heap :=
  if upi =? 0 then
    do h <- shift1 h u 0; do h <- shift1 h u 1; do h <- shift1 h u 2; dn_set h u 3 0%nat
  else if upi =? 1 then
    do h <- shift1 h u 1; do h <- shift1 h u 2; dn_set h u 3 0%nat
  else if upi =? 2 then
    do h <- shift1 h u 2; dn_set h u 3 0%nat
  else if upi =? 3 then dn_set h u 3 0%nat
  else Some h.

(** lines 227-237: the merged children take the place of [at_]; custom_timer.go:227-237 *)
Definition relink (h : heap) (at_ downi : nat) : option heap :=
  if Nat.eqb at_ (top h) then
    let h := mkH (cells h) (hlen h) (size h) downi (free h) (ti h) in
    do d <- get h downi;
    put h downi (with_upi (with_up d 0) 0)
  else
    do t <- get h at_;
    do d <- get h downi;
    do h <- put h downi (with_upi (with_up d (iup t)) (iupi t));
    do _ <- check ((0 <=? iupi t) && (iupi t <? 4));
    dn_set h (iup t) (Z.to_nat (iupi t)) downi.

(** lines 195-226: the children of [at_] are merged into one tree; its root; custom_timer.go:195-226 *)
Definition merge (h : heap) (at_ : nat) : option (heap * nat) :=
  do t <- get h at_;
  match idl t with
  | 1%nat => Some (h, dnth t 0)
  | 2%nat =>
      do a <- get h (dnth t 0); do b <- get h (dnth t 1);
      if ie a <=? ie b then
        do h <- put_under' h (dnth t 0) (dnth t 1); Some (h, dnth t 0)
      else
        do h <- put_under' h (dnth t 1) (dnth t 0); Some (h, dnth t 1)
  | 3%nat =>
      do a <- get h (dnth t 0); do b <- get h (dnth t 1); do c <- get h (dnth t 2);
      let arr := sort3_arr (dnth t 0, ie a) (dnth t 1, ie b) (dnth t 2, ie c) in
      let '(d0, d1, d2) := (nth 0 arr 0, nth 1 arr 0, nth 2 arr 0)%nat in
      do h <- put h at_ (with_dn t (set_nth (set_nth (set_nth (idn t) 0 d0) 1 d1) 2 d2));
      do h <- put_under' h d1 d2;
      do h <- put_under' h d0 d1;
      Some (h, d0)
  | 4%nat =>
      do h <- sort4 put_under' h at_;
      do t <- get h at_;
      Some (h, dnth t 0)
  | _ => Some (h, 0%nat)  (* no case matches: downi stays 0 *)
  end.

(** lines 170-194: a leaf is unlinked; otherwise the merged children replace [at_]; custom_timer.go:170-194 *)
Definition detach (h : heap) (at_ : nat) : option heap :=
  do t <- get h at_;
  if Nat.eqb (idl t) 0 then
    if Nat.eqb at_ (top h) then Some (mkH (cells h) (hlen h) (size h) 0%nat (free h) (ti h))
    else
      do h <- shift_children h (iup t) (iupi t);
      do up <- get h (iup t);
      put h (iup t) (with_dl up (Nat.pred (idl up)))
  else
    do (h, downi) <- merge h at_;
    relink h at_ downi.

(** remove, custom_timer.go:165-241 *)
Definition remove (h : heap) (at_ : nat) : option heap :=
  do t <- get h at_;
  do x <- ix t;  (* t.x.Timer() on a nil interface panics *)
  let h := mkH (cells h) (hlen h) (size h - 1) (top h) (free h) (fupd (ti h) x 0%nat) in
  do h <- detach h at_;
  do h <- put h at_ (freed (free h));
  Some (mkH (cells h) (hlen h) (size h) (top h) at_ (ti h)).

(** Critical sections. custom_timer.go:23-48, 106-135 *)
Inductive top_ :=
| Arm (x : nat) (e : Z)   (* Timer.After with NowEpoch().Add(d) = e, lines 23-37 *)
| Stop (x : nat)          (* Timer.Stop, lines 39-48 *)
| Pop (now : Z).          (* one round of the inner loop of [loop], lines 113-130, clock sampled as now *)

(** custom_timer.go:23-48, 106-135 *)
Inductive tev :=
| Armed (x : nat) (e : Z)
| Stopped (x : nat)
| Fired (x : nat) (e : Z) (now : Z)   (* taken by the loop, x.Expire() follows *)
| Asleep (now : Z).                   (* nothing to expire: the loop goes to sleep *)

(** custom_timer.go:23-48, 106-135 *)
Definition hstep (h : heap) (o : top_) : option (heap * tev) :=
  match o with
  | Arm x e => do r <- push h x e; Some (fst r, Armed x e)
  | Stop x =>
      (* Timer.h is 0 until the first After; Timer.i is 0 then, too *)
      if Nat.eqb (ti h x) 0 then Some (h, Stopped x)
      else do h <- remove h (ti h x); Some (h, Stopped x)
  | Pop now =>
      if size h =? 0 then Some (h, Asleep now)
      else
        do t <- get h (top h);
        if now <=? ie t then Some (h, Asleep now)
        else
          do h' <- remove h (top h);
          match ix t with
          | Some x => Some (h', Fired x (ie t) now)
          | None => None
          end
  end.

(** newHeap: one dummy cell, lines 98-104; custom_timer.go:98-104 *)
Definition hinit : heap := mkH (fun _ => zero_item) 1 0 0 0 (fun _ => 0%nat).

(** Runs a history, collecting events (oldest first). bookkeeping: a sequence of critical sections *)
Fixpoint hrun (h : heap) (ops : list top_) : option (heap * list tev) :=
  match ops with
  | [] => Some (h, [])
  | o :: ops =>
      match hstep h o with
      | None => None
      | Some (h, e) =>
          match hrun h ops with
          | None => None
          | Some (h, l) => Some (h, e :: l)
          end
      end
  end.
