(** Specification of the wire format and of byte transports, independent of the model's
    buffers. README.md: <header> = <type:int32><body_length:int32><request_id:int32>. *)
From Coq Require Import ZArith List.
Import ListNotations.
From Verif Require Import Base WireModel.
Open Scope Z_scope.

(** A 32-bit little-endian number. *)
Definition le32 (x : Z) : list Z :=
  [x mod 256; x / 256 mod 256; x / 65536 mod 256; x / 16777216 mod 256].

Definition header (msg len id : Z) : list Z := le32 msg ++ le32 len ++ le32 id.

Definition request_frame (q : request) : list Z :=
  header (q_msg q) (zlen (q_body q)) (q_id q) ++ q_body q.

(** The documented response frame: the body starts with the return code (4, 1 or 0 bytes);
    pings carry no return code. *)
Definition code_bytes (rc : rctype) (msg code : Z) : list Z :=
  if msg =? PING then [] else
  match rc with RC4 => le32 code | RC1 => [code] | RC0 => [] end.

Definition response_frame (rc : rctype) (p : response) : list Z :=
  let c := code_bytes rc (p_msg p) (p_code p) in
  header (p_msg p) (zlen c + zlen (p_body p)) (p_id p) ++ c ++ p_body p.

(** Field ranges that fit the 32-bit header. *)
Definition request_ok (q : request) : Prop :=
  u32_ok (q_msg q) /\ u32_ok (q_id q) /\ u32_ok (zlen (q_body q)).
Definition response_ok (rc : rctype) (p : response) : Prop :=
  u32_ok (p_msg p) /\ u32_ok (p_id p) /\ u32_ok (p_code p) /\
  u32_ok (zlen (code_bytes rc (p_msg p) (p_code p)) + zlen (p_body p)).

(** [carries script s]: the transport delivers exactly the bytes [s], in any fragmentation
    (empty reads included), and then end-of-file (possibly together with the last bytes). *)
Inductive carries : list chunk -> list Z -> Prop :=
| carries_nil : carries [] []
| carries_eof d : carries [mkChunk d (Some EEOF)] d
| carries_cons d cs s : carries cs s -> carries (mkChunk d None :: cs) (d ++ s).

(** What one call puts on the wire, in call order. For RC1 the code byte is followed by three
    unspecified bytes and for RC4 a ping reply carries four code bytes: this is what the code
    does, see C04 and C05. *)
Inductive emits (rc : rctype) : wop -> list Z -> Prop :=
| em_req q : emits rc (OpReq q) (header (q_msg q) (zlen (q_body q)) (q_id q) ++ q_body q)
| em_ping : emits rc OpPing (header PING 0 PING_ID)
| em_flush : emits rc OpFlush []
| em_res p c len :
    len = zlen (p_body p) + (if p_msg p =? PING then 0 else rc_len rc) ->
    match rc with
    | RC0 => c = []
    | RC1 => exists x, c = p_code p mod 256 :: x /\ length x = 3%nat
    | RC4 => c = le32 (p_code p)
    end ->
    emits rc (OpRes p) (header (p_msg p) len (p_id p) ++ c ++ p_body p).

(** Reading requests until the first failure, as net/server/connection.go:170-173 does;
    [fuel] bounds the number of reads. Bodies are looked at immediately. *)
Inductive rend := EndErr (e : rerr) | EndPanic | EndFuel.
Fixpoint read_requests (fuel : nat) (r : slr) : list request * rend :=
  match fuel with
  | O => ([], EndFuel)
  | S k => match hr_request r with
           | ROk r' q =>
               let '(qs, e) := read_requests k r' in
               (mkReq (rq_msg q) (rq_id q) (slice_bytes (r_store r') (rq_body q)) :: qs, e)
           | RErr _ e => ([], EndErr e)
           | RPanic => ([], EndPanic)
           end
  end.
(** Reading responses until the first failure
    (net/client/connection/connection.go:204-226). *)
Fixpoint read_responses (rc : rctype) (fuel : nat) (r : slr) : list response * rend :=
  match fuel with
  | O => ([], EndFuel)
  | S k => match hr_response rc r with
           | ROk r' p =>
               let '(ps, e) := read_responses rc k r' in
               (mkRes (rs_msg p) (rs_id p) (rs_code p) (slice_bytes (r_store r') (rs_body p)) :: ps, e)
           | RErr _ e => ([], EndErr e)
           | RPanic => ([], EndPanic)
           end
  end.

(** The requests / responses written by a history of calls. *)
Fixpoint requests_of (ops : list wop) : list request :=
  match ops with
  | [] => []
  | OpReq q :: t => q :: requests_of t
  | OpPing :: t => mkReq PING PING_ID [] :: requests_of t
  | _ :: t => requests_of t
  end.
Fixpoint responses_of (ops : list wop) : list response :=
  match ops with
  | [] => []
  | OpRes p :: t => p :: responses_of t
  | _ :: t => responses_of t
  end.

(** Any calls a program can make on a HeaderReader, whatever they return (errors included);
    [None] when a call panicked. *)
Inductive rop := RdRequest | RdResponse | RdPing.
Definition res_state {A} (x : rres A) : option slr :=
  match x with ROk r _ => Some r | RErr r _ => Some r | RPanic => None end.
Definition run_rop (rc : rctype) (r : slr) (o : rop) : option slr :=
  match o with
  | RdRequest => res_state (hr_request r)
  | RdResponse => res_state (hr_response rc r)
  | RdPing => res_state (hr_ping r)
  end.
Fixpoint run_rops (rc : rctype) (r : slr) (ops : list rop) : option slr :=
  match ops with
  | [] => Some r
  | o :: t => match run_rop rc r o with Some r' => run_rops rc r' t | None => None end
  end.

(** A sequence of SliceReader.Read(n) calls; [None] as soon as one fails. *)
Fixpoint reads (r : slr) (ns : list nat) : option (list (list Z)) :=
  match ns with
  | [] => Some []
  | n :: t => match sl_Read r n with
              | ROk r' x =>
                  match reads r' t with
                  | Some os => Some (slice_bytes (r_store r') x :: os)
                  | None => None
                  end
              | _ => None
              end
  end.

(** The bytes that reached the socket after a history of calls none of which failed. *)
Definition wire_bytes (rc : rctype) (ops : list wop) : option (list Z) :=
  match hw_run rc (w_init []) ops with WOk w => Some (w_out w) | _ => None end.
