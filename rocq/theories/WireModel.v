(** Model of the wire layer: net/buf_writer.go, net/slice_reader.go, net/header.go,
    net/consts.go.

    Simplifications common to the file: deadlines (SetReadDeadline/SetWriteDeadline) only
    influence when the transport reports an error, so they are part of the transport script;
    [int] is 64 bits wide; allocation never fails. *)
From Coq Require Import ZArith List Bool Arith.
Import ListNotations.
From Verif Require Import Base.
Open Scope Z_scope.

(** net/consts.go:10-16: RCType values RC4byte, RC1byte, RC0byte. *)
Inductive rctype := RC4 | RC1 | RC0.

(** request.go:16  Ping = RequestType(0xFF00); request.go:20  PingRequestId = ^uint32(0). *)
Definition PING : Z := 65280.
(** PingRequestId, request.go:19-21 *)
Definition PING_ID : Z := 4294967295.
(** response.go:14-25: return codes used by the wire layer. *)
Definition RC_OK : Z := 0.
(** response.go:22 *)
Definition RC_PROTOCOL_ERROR : Z := 770.

(** net/header.go:14-18 type Request. *)
Record request := mkReq { q_msg : Z; q_id : Z; q_body : list Z }.
(** response.go:31-36 type Response (net/header.go:20). *)
Record response := mkRes { p_msg : Z; p_id : Z; p_code : Z; p_body : list Z }.

(* ------------------------------------------------------------------------- *)
(** * BufWriter *)

(** net/buf_writer.go:8-15 BufWriter. [w_buf = None] is the nil slice; otherwise the buffer
    contents (stale bytes included). [w_out] collects every byte accepted by the socket;
    [w_script] gives the outcome of the coming socket writes: [None] accepts everything,
    [Some k] accepts the first k bytes and then fails; an exhausted script accepts everything. *)
Record bufw := mkW { w_buf : option (list Z); w_wr : nat;
                     w_out : list Z; w_script : list (option nat) }.

(** Outcome of a writer call: normal, an error returned, or a run-time panic. the result of a call of the writer, net/buf_writer.go:17-105 *)
Inductive wres := WOk (w : bufw) | WErr (w : bufw) | WPanic.

(** net/header.go:127-140 HeaderWriter.Init: a fresh BufWriter{w, timeout}. *)
Definition w_init (script : list (option nat)) : bufw := mkW None 0 [] script.

(** len(w.buf). net/buf_writer.go:8-15 *)
Definition w_len (w : bufw) : nat := match w_buf w with None => 0%nat | Some b => length b end.

(** net/buf_writer.go:86-105 write: hand [d] to the socket. *)
Definition w_write (w : bufw) (d : list Z) : wres :=
  match w_script w with
  | [] => WOk (mkW (w_buf w) (w_wr w) (w_out w ++ d) [])
  | None :: s => WOk (mkW (w_buf w) (w_wr w) (w_out w ++ d) s)
  | Some k :: s => WErr (mkW (w_buf w) (w_wr w) (w_out w ++ firstn k d) s)
  end.

(** The size passed to make in Flush (net/buf_writer.go:81). *)
Definition WBUF : nat := Z.to_nat 4096.

(** net/buf_writer.go:72-84 Flush. w.buf[:w.wr] panics when wr exceeds the capacity
    (= length here, buffers being allocated with make). *)
Definition w_flush (w : bufw) : wres :=
  let fin (w : bufw) :=
    WOk (match w_buf w with
         | None => mkW (Some (repeat 0 WBUF)) (w_wr w) (w_out w) (w_script w)
         | Some _ => w
         end) in
  if (0 <? w_wr w)%nat then
    match w_buf w with
    | None => WPanic
    | Some b =>
        if (length b <? w_wr w)%nat then WPanic else
        match w_write w (firstn (w_wr w) b) with
        | WOk w1 => fin (mkW (w_buf w1) 0 (w_out w1) (w_script w1))
        | r => r
        end
    end
  else fin w.

(** Store [d] at buf[wr : wr+length d] and add [adv] to wr; panics when the range is outside
    the buffer. Common shape of copy(...)/PutUint32/indexed store followed by w.wr += adv
    (net/buf_writer.go:28-29, 40-41, 52-56, 67-68). *)
Definition w_put (w : bufw) (d : list Z) (adv : nat) : wres :=
  match w_buf w with
  | None => match d with
            | [] => WOk (mkW None (w_wr w + adv) (w_out w) (w_script w))
            | _ => WPanic
            end
  | Some b =>
      if (length b <? w_wr w + length d)%nat then WPanic
      else WOk (mkW (Some (overwrite b (w_wr w) d)) (w_wr w + adv) (w_out w) (w_script w))
  end.

(** bookkeeping: sequencing; an error or a panic ends the computation *)
Definition w_bind (r : wres) (f : bufw -> wres) : wres :=
  match r with WOk w => f w | r => r end.

(** net/buf_writer.go:17-31 Write. *)
Definition w_Write (w : bufw) (body : list Z) : wres :=
  let bl := length body in
  let l := w_len w in
  if (l <? w_wr w + bl)%nat || ((l / 4 <? bl)%nat && (l / 4 <? w_wr w)%nat) then
    w_bind (w_flush w) (fun w =>
      if (w_len w / 4 <? bl)%nat then w_write w body else w_put w body bl)
  else w_put w body bl.

(** net/buf_writer.go:33-43 WriteUint32. *)
Definition w_Write_u32 (w : bufw) (i : Z) : wres :=
  let put w := w_put w (le_enc 4 i) 4 in
  if (w_len w <? w_wr w + 4)%nat then w_bind (w_flush w) put else put w.

(** net/buf_writer.go:45-58 Write3Uint32. *)
Definition w_Write3_u32 (w : bufw) (i j k : Z) : wres :=
  let put w := w_put w (le_enc 4 i ++ le_enc 4 j ++ le_enc 4 k) 12 in
  if (w_len w <? w_wr w + 12)%nat then w_bind (w_flush w) put else put w.

(** net/buf_writer.go:60-70 WriteByte: stores one byte but advances wr by 4. *)
Definition w_WriteByte (w : bufw) (i : Z) : wres :=
  let put w := w_put w [i] 4 in
  if (w_len w <? w_wr w + 4)%nat then w_bind (w_flush w) put else put w.

(* ------------------------------------------------------------------------- *)
(** * HeaderWriter *)

(** net/header.go:142-147 WriteRequest; uint32(len(..)) wraps. *)
Definition hw_request (w : bufw) (q : request) : wres :=
  w_bind (w_Write3_u32 w (q_msg q) (zlen (q_body q) mod 4294967296) (q_id q))
         (fun w => w_Write w (q_body q)).

(** net/header.go:149-156 Ping. *)
Definition hw_ping (w : bufw) : wres := hw_request w (mkReq PING PING_ID []).

(** net/header.go:127-140: h.rcl. *)
Definition rc_len (rc : rctype) : Z := match rc with RC0 => 0 | RC1 => 1 | RC4 => 4 end.

(** net/header.go:158-184 WriteResponse. *)
Definition hw_response (rc : rctype) (w : bufw) (p : response) : wres :=
  let rcl := if p_msg p =? PING then 0 else rc_len rc in
  let body_len := (zlen (p_body p) + rcl) mod 4294967296 in
  w_bind (w_Write3_u32 w (p_msg p) body_len (p_id p)) (fun w =>
  w_bind (match rc with
          | RC0 => WOk w
          | RC1 => w_WriteByte w (p_code p mod 256)
          | RC4 => w_Write_u32 w (p_code p)
          end) (fun w =>
  w_Write w (p_body p))).

(** The calls a user makes on a HeaderWriter. net/header.go:142-188 *)
Inductive wop := OpReq (q : request) | OpRes (p : response) | OpPing | OpFlush.

(** net/header.go:142-188 *)
Definition hw_op (rc : rctype) (w : bufw) (o : wop) : wres :=
  match o with
  | OpReq q => hw_request w q
  | OpRes p => hw_response rc w p
  | OpPing => hw_ping w
  | OpFlush => w_flush w
  end.

(** A history of calls; the callers in /repo (net/server/connection.go:254-289,
    net/client/connection/connection.go writeLoop) stop at the first error. *)
Fixpoint hw_run (rc : rctype) (w : bufw) (ops : list wop) : wres :=
  match ops with
  | [] => WOk w
  | o :: ops => w_bind (hw_op rc w o) (fun w => hw_run rc w ops)
  end.

(* ------------------------------------------------------------------------- *)
(** * SliceReader; the errors of net/slice_reader.go:17-91 and net/header.go:106-119 *)

(** net/slice_reader.go:17-91, net/header.go:106-119 *)
Inductive rerr := EEOF | EUnexpectedEOF | EOther | EPingFailed.

(** One outcome of the transport's Read: data, then possibly an error reported together
    with the last byte of it. A Read into a shorter slice returns a part of the data and
    leaves the rest for the next Read; an exhausted script reports EOF; a Read into an empty
    slice returns (0, nil) as net.Conn does. net/slice_reader.go:72-91 *)
Record chunk := mkChunk { c_data : list Z; c_err : option rerr }.

(** Backing arrays; a Go slice is a window of one of them. what sl.buf of net/slice_reader.go:8-15 and the slices it returned point to *)
Definition store := list (list Z).
(** a []byte, net/slice_reader.go:8-50 *)
Record slice := mkSlice { s_arr : nat; s_off : nat; s_len : nat; s_cap : nat }.

(** the array of a slice, net/slice_reader.go:8-15 *)
Definition arr_of (st : store) (a : nat) : list Z := nth a st [].
(** The bytes a Go program sees when it looks at slice [s]. net/slice_reader.go:17-50 *)
Definition slice_bytes (st : store) (s : slice) : list Z :=
  firstn (s_len s) (skipn (s_off s) (arr_of st (s_arr s))).

(** replace array number [a]; net/slice_reader.go:17-50 *)
Fixpoint set_arr (st : store) (a : nat) (v : list Z) : store :=
  match st, a with
  | [], _ => []
  | _ :: st, O => v :: st
  | x :: st, S a => x :: set_arr st a v
  end.

(** net/slice_reader.go:8-15 SliceReader: buf, and the transport. *)
Record slr := mkR { r_store : store; r_buf : slice; r_script : list chunk }.

(** net/header.go:27-30 HeaderReader.Init: buf is nil (array 0 is the empty array). *)
Definition r_init (script : list chunk) : slr := mkR [[]] (mkSlice 0 0 0 0) script.

(** size: 8 * 1024 (net/header.go:28). *)
Definition RSIZE : nat := Z.to_nat 8192.

(** The transport Read into a non-empty window of [room] cells (net/slice_reader.go:72-91). *)
Definition t_read (room : nat) (script : list chunk) : list Z * option rerr * list chunk :=
  match script with
  | [] => ([], Some EEOF, [])
  | c :: cs =>
      if (length (c_data c) <=? room)%nat then (c_data c, c_err c, cs)
      else (firstn room (c_data c), None, mkChunk (skipn room (c_data c)) (c_err c) :: cs)
  end.

(** net/slice_reader.go:35-39: for l < n && err == nil { nn, err = read(buf[l:cap]); l += nn }.
    Every round either consumes a whole chunk or fills the window, so recursion is on the
    script. [a] is the backing array, [off] the offset of buf, [cap] its capacity. *)
Fixpoint sl_fill (script : list chunk) (a : list Z) (off cap l n : nat) {struct script}
  : list Z * nat * option rerr * list chunk :=
  if (l <? n)%nat then
    match script with
    | [] => (a, l, Some EEOF, [])
    | c :: cs =>
        let room := (cap - l)%nat in
        if (length (c_data c) <=? room)%nat then
          let a' := overwrite a (off + l) (c_data c) in
          let l' := (l + length (c_data c))%nat in
          match c_err c with
          | Some e => (a', l', Some e, cs)
          | None => sl_fill cs a' off cap l' n
          end
        else
          let d := firstn room (c_data c) in
          (overwrite a (off + l) d, (l + length d)%nat, None,
           mkChunk (skipn room (c_data c)) (c_err c) :: cs)
    end
  else (a, l, None, script).

(** the result of a call of the reader, net/slice_reader.go:17-70 *)
Inductive rres (A : Type) := ROk (r : slr) (x : A) | RErr (r : slr) (e : rerr) | RPanic.
Arguments ROk {A}. Arguments RErr {A}. Arguments RPanic {A}.

(** net/slice_reader.go:23-33: reuse sl.buf if its capacity suffices, otherwise
    make([]byte, len(sl.buf), max(n, size)) and copy. *)
Definition sl_grow (r : slr) (n : nat) : store * slice :=
  let b := r_buf r in
  if (s_cap b <? n)%nat then
    let c := if (RSIZE <? n)%nat then n else RSIZE in
    (r_store r ++ [slice_bytes (r_store r) b ++ repeat 0 (c - s_len b)],
     mkSlice (length (r_store r)) 0 (s_len b) c)
  else (r_store r, b).

(** net/slice_reader.go:17-50 Read(n). Line 46 evaluates buf[l:], whose upper bound is
    len(buf): it panics when l > len(buf). *)
Definition sl_Read (r : slr) (n : nat) : rres slice :=
  let b := r_buf r in
  if (n <? s_len b)%nat then
    ROk (mkR (r_store r) (mkSlice (s_arr b) (s_off b + n) (s_len b - n) (s_cap b - n)) (r_script r))
        (mkSlice (s_arr b) (s_off b) n (s_cap b))
  else
    let '(st, b) := sl_grow r n in
    let '(a, l, err, script) :=
      sl_fill (r_script r) (arr_of st (s_arr b)) (s_off b) (s_cap b) (s_len b) n in
    let st := set_arr st (s_arr b) a in
    if (n <=? l)%nat then
      ROk (mkR st (mkSlice (s_arr b) (s_off b + n) (l - n) (s_cap b - n)) script)
          (mkSlice (s_arr b) (s_off b) n (s_cap b))
    else
      match err with
      | Some EEOF =>
          if (0 <? l)%nat then
            if (s_len b <? l)%nat then RPanic
            else RErr (mkR st (mkSlice (s_arr b) (s_off b + l) (s_len b - l) (s_cap b - l)) script)
                      EUnexpectedEOF
          else RErr (mkR st (r_buf r) script) EEOF
      | Some e => RErr (mkR st (r_buf r) script) e
      | None => RPanic (* not reached: the loop ends with l >= n or an error *)
      end.

(** net/slice_reader.go:52-70 ReadByte: with an empty buffer it makes a slice of length 0,
    asks the transport to read into it (which yields (0, nil)) and returns (0, nil). *)
Definition sl_ReadByte (r : slr) : rres Z :=
  let b := r_buf r in
  if (0 <? s_len b)%nat then
    ROk (mkR (r_store r) (mkSlice (s_arr b) (s_off b + 1) (s_len b - 1) (s_cap b - 1)) (r_script r))
        (hd 0 (slice_bytes (r_store r) b))
  else ROk r 0.

(* ------------------------------------------------------------------------- *)
(** * HeaderReader *)

(** Results carry the body as a slice of the store. net/header.go:14-18 *)
Record rq := mkRq { rq_msg : Z; rq_id : Z; rq_body : slice }.
(** net/header.go:20 *)
Record rs := mkRs { rs_msg : Z; rs_id : Z; rs_code : Z; rs_body : slice }.

(** bookkeeping: sequencing; an error or a panic ends the computation *)
Definition r_bind {A B} (x : rres A) (f : slr -> A -> rres B) : rres B :=
  match x with ROk r a => f r a | RErr r e => RErr r e | RPanic => RPanic end.

(** bin_le.Uint32(head[i:i+4]). net/header.go:32-119 *)
Definition u32_at (l : list Z) (i : nat) : Z := le_dec (firstn 4 (skipn i l)).

(** net/header.go:32-50 ReadRequest. *)
Definition hr_request (r : slr) : rres rq :=
  r_bind (sl_Read r 12) (fun r h =>
  let head := slice_bytes (r_store r) h in
  r_bind (sl_Read r (Z.to_nat (u32_at head 4))) (fun r body =>
  ROk r (mkRq (u32_at head 0) (u32_at head 8) body))).

(** net/header.go:52-104 ReadResponse. *)
Definition hr_response (rc : rctype) (r : slr) : rres rs :=
  r_bind (sl_Read r 12) (fun r h =>
  let head := slice_bytes (r_store r) h in
  let msg := u32_at head 0 in
  let body_len := u32_at head 4 in
  let fin r code body_len :=
    r_bind (sl_Read r (Z.to_nat body_len)) (fun r body =>
    ROk r (mkRs msg (u32_at head 8) code body)) in
  if msg =? PING then fin r 0 body_len else
  match rc with
  | RC0 => fin r RC_OK body_len
  | RC1 => if body_len <? 1 then fin r RC_PROTOCOL_ERROR body_len
           else r_bind (sl_ReadByte r) (fun r c => fin r c (body_len - 1))
  | RC4 => if body_len <? 4 then fin r RC_PROTOCOL_ERROR body_len
           else r_bind (sl_Read r 4) (fun r cd =>
                  fin r (u32_at (slice_bytes (r_store r) cd) 0) (body_len - 4))
  end).

(** net/header.go:106-119 ReadPing: only the header is read; body_len is not looked at. *)
Definition hr_ping (r : slr) : rres unit :=
  r_bind (sl_Read r 12) (fun r h =>
  let head := slice_bytes (r_store r) h in
  if (u32_at head 0 =? PING) && (u32_at head 8 =? PING_ID) then ROk r tt
  else RErr r EPingFailed).
