{"id": "C01", "title": "Request stream round-trip", "statement": "Writing any sequence of requests with HeaderWriter.WriteRequest, flushing at any points, and reading the bytes back with HeaderReader.ReadRequest, however the transport fragments them, yields exactly the same (Msg, Id, Body) sequence and then an end-of-stream error.", "quantifier": "every sequence of requests with bodies shorter than 2^32, every placement of Flush calls, every fragmentation of the byte stream into reads", "why_tests_cant": "the internal 4096-byte output buffer and 8192-byte input buffer make behaviour depend on the alignment of sizes and fragments; tests sample only a few", "anchors": ["net/header.go: WriteRequest, ReadRequest, Ping", "net/buf_writer.go: Write, Write3Uint32, Flush", "net/slice_reader.go: Read"]}
{"id": "C02", "title": "Response stream round-trip with 4-byte return codes", "statement": "With RC4byte, any sequence of non-ping responses written by WriteResponse is read back by ReadResponse as the same (Msg, Id, Code, Body) sequence for any fragmentation.", "quantifier": "every sequence of non-ping responses with body+4 < 2^32, every flush placement, every fragmentation", "why_tests_cant": "same as C01, plus the code bytes straddling fragments", "anchors": ["net/header.go: WriteResponse, ReadResponse", "net/slice_reader.go: Read"]}
{"id": "C03", "title": "Response stream round-trip with no return code", "statement": "With RC0byte, any sequence of responses (ping included) is read back with the same Msg, Id and Body and with Code = RcOK.", "quantifier": "every sequence of responses, every flush placement, every fragmentation", "why_tests_cant": "unbounded sequences and fragmentations", "anchors": ["net/header.go: WriteResponse, ReadResponse"]}
{"id": "C04", "title": "Response stream round-trip with 1-byte return codes", "statement": "With RC1byte, a response with Code < 256 written by WriteResponse and read back by ReadResponse has the same Msg, Id, Code, Body, for any fragmentation.", "quantifier": "every non-ping response and fragmentation", "why_tests_cant": "fragment boundaries exactly before the code byte are not hit by ordinary tests", "anchors": ["net/buf_writer.go: WriteByte", "net/slice_reader.go: ReadByte", "net/header.go: RC1byte cases"]}
{"id": "C05", "title": "Ping replies keep the stream in sync", "statement": "The server's reply to a ping, written by WriteResponse with Msg = Ping, is consumed exactly by the client's ReadPing or ReadResponse, so that the next response is read at a frame boundary, for every configured return-code width.", "quantifier": "every return-code width, every sequence of pings and responses", "why_tests_cant": "needs the composition of writer and reader over an arbitrary following stream", "anchors": ["net/header.go: WriteResponse, ReadPing, ReadResponse", "net/server/connection.go: readLoop (ping)", "net/client/connection/connection.go: Loop"]}
{"id": "C06", "title": "Output buffering is transparent", "statement": "At every moment, for every history of WriteRequest/WriteResponse/Ping/Flush calls and every socket outcome, the bytes handed to the socket are a prefix of the concatenation of the frames in call order; after a Flush that returned no error nothing remains buffered; no call indexes the buffer out of range.", "quantifier": "every history of writer calls, every pattern of socket write failures", "why_tests_cant": "depends on every combination of buffer fill level and body size around the thresholds len/4 and len", "anchors": ["net/buf_writer.go", "net/header.go: HeaderWriter"]}
{"id": "C07", "title": "Fragmentation independence of the input side", "statement": "The result of each SliceReader.Read(n) depends only on the byte stream, never on how the transport fragments it: it returns the next n bytes and leaves exactly the rest.", "quantifier": "every n, every previous history of reads, every fragmentation", "why_tests_cant": "the number of fragmentations of a stream is exponential", "anchors": ["net/slice_reader.go: Read"]}
{"id": "C08", "title": "Truncated streams never yield a phantom frame", "statement": "If the peer closes the connection at any byte position, ReadRequest returns exactly the frames that were completely received, followed by an error.", "quantifier": "every request sequence, every cut position (crash point), every fragmentation", "why_tests_cant": "cut positions and fragmentations are unbounded", "anchors": ["net/slice_reader.go: Read", "net/header.go: ReadRequest"]}
{"id": "C09", "title": "Received bodies never change afterwards", "statement": "The bytes of a Body returned by ReadRequest or ReadResponse are never altered by any later read on the same connection, although all bodies are sub-slices of shared buffers.", "quantifier": "every sequence of reads after the body was returned, every fragmentation", "why_tests_cant": "aliasing only shows for particular buffer fill levels and depends on later traffic", "anchors": ["net/slice_reader.go: Read, ReadByte"]}
{"id": "C10", "title": "Short responses are reported as protocol errors and stay in sync", "statement": "With RC4byte (RC1byte), a non-ping response frame whose body is shorter than the return code is delivered with Code RcProtocolError and its whole body, and the following frame is read correctly.", "quantifier": "every body length below the code width, every following stream, every fragmentation", "why_tests_cant": "all malformed lengths combined with all continuations", "anchors": ["net/header.go: ReadResponse"]}
{"id": "C11", "title": "Varint round-trip and minimal length", "statement": "Reader.Uint64var applied to what Writer.Uint64var wrote returns the same number and leaves the following bytes untouched; the encoding is the big-endian base-128 representation without leading zero groups and has 1 to 10 bytes.", "quantifier": "every uint64, every following byte string", "why_tests_cant": "2^64 values; boundaries at each power of 128 and at 2^63", "anchors": ["marshal/writer.go: Uint64var", "marshal/reader.go: Uint64var"]}
{"id": "C12", "title": "Varint decoding is safe on arbitrary bytes", "statement": "On any byte string Reader.Uint64var either returns the value of the first complete base-128 group sequence (which fits in 64 bits) and consumes exactly it, or sets an error and consumes nothing.", "quantifier": "every byte string", "why_tests_cant": "hostile inputs of unbounded length", "anchors": ["marshal/reader.go: Uint64var"]}
{"id": "C13", "title": "Fixed-width numbers round-trip", "statement": "Every (u)int8..64 and float32/64 written by the Writer is read back equal, in little-endian layout, whatever follows it in the buffer.", "quantifier": "every value of every width, every following byte string", "why_tests_cant": "up to 2^64 values per type", "anchors": ["marshal/writer_any.go", "marshal/reader_any.go", "marshal/writer.go: Uint8, Int8", "marshal/reader.go: Uint8, Int8"]}
{"id": "C14", "title": "Slices of fixed-width numbers round-trip", "statement": "A slice of fixed-width numbers of any length written by the Writer's bulk methods is read back equal by the corresponding bulk Reader method.", "quantifier": "every element type, every length, every content", "why_tests_cant": "unbounded lengths", "anchors": ["marshal/writer_any.go: Uint16sl..Float64sl", "marshal/reader_any.go: Uint16sl..Float64sl"]}
{"id": "C15", "title": "Decoding errors are sticky", "statement": "Once a Reader has failed, every later primitive read returns a zero value, consumes nothing and keeps the first error.", "quantifier": "every failed reader state, every later sequence of read calls", "why_tests_cant": "all call histories after an error", "anchors": ["marshal/reader.go", "marshal/reader_any.go"]}
{"id": "C16", "title": "Truncated or hostile input never panics a primitive read", "statement": "For any input and any requested size, primitive Reader calls report missing data as an error instead of panicking.", "quantifier": "every body, every size obtained from the wire (including varint sizes up to 2^64-1)", "why_tests_cant": "hostile sizes", "anchors": ["marshal/reader.go: Slice, String, Intvar", "marshal/reader_any.go"]}
{"id": "C17", "title": "Size accounting of varints matches the bytes emitted", "statement": "The number of bytes that the size computation predicts for a base-128 field equals the number of bytes the writer emits for it.", "quantifier": "every uint64", "why_tests_cant": "a wrong boundary affects a thin set of values", "anchors": ["marshal/writer.go: varu64size", "marshal/marshal.go: Varsize", "marshal/writer.go: Uint64var"]}
{"id": "C18", "title": "Read inverts Write for structured values", "statement": "For every supported type (numbers, strings, arrays, slices, structs with ber/size()/cnt() tags, nested to any depth) and every value, marshal.Read into a fresh variable of the same type restores the value written by marshal.Write and leaves the rest of the input.", "quantifier": "every type of the class, every value, every following byte string", "why_tests_cant": "infinitely many types and values", "anchors": ["marshal/writer_reflect.go", "marshal/reader_reflect.go"]}
{"id": "C19", "title": "Write follows the documented layout", "statement": "marshal.Write emits numbers little-endian, strings and slices as a uint32 element count followed by the elements, arrays and structs as the concatenation of their elements, and tagged fields with the size or count prefix asked for.", "quantifier": "every type of the class, every value", "why_tests_cant": "infinitely many types and values", "anchors": ["marshal/writer_reflect.go: Fill, FillStruct, FillSlice, FillArray, WithSize, WithCount"]}
{"id": "C20", "title": "A size() prefix equals the number of bytes that follow", "statement": "For a field tagged size(k), the number written as prefix is the length in bytes of the field content written after it.", "quantifier": "every field type, every value", "why_tests_cant": "the size is computed by a separate static/dynamic size analysis, wrong only for particular combinations", "anchors": ["marshal/writer_reflect.go: WithSize, Size, FillStruct (size accounting)"]}
{"id": "C21", "title": "size(i64)/cnt(i64) prefixes round-trip", "statement": "A field tagged size(i64) or cnt(i64) is read back equal to what was written.", "quantifier": "every field type and value", "why_tests_cant": "interaction of two separately written sides", "anchors": ["marshal/writer.go: IntUint64", "marshal/reader.go: IntUint64"]}
{"id": "C22", "title": "Written bytes never change afterwards", "statement": "The slice returned by Writer.Written is never altered by later use of the same Writer, and Written returns exactly the bytes written since the previous Written or Reset.", "quantifier": "every history of writes, Written and Reset calls on one Writer", "why_tests_cant": "aliasing depends on capacities and on the complete later history", "anchors": ["marshal/writer.go: Written, Reset, ensure", "marshal/marshal.go: Write (writer pool)"]}
{"id": "C23", "title": "Buffer growth is always sufficient", "statement": "Growing the Writer's buffer for n more bytes never fails and preserves everything written so far.", "quantifier": "every current length, capacity, default size and n", "why_tests_cant": "the growth formula uses bit tricks whose result is not a power of two", "anchors": ["marshal/writer.go: ensure, ceilLog"]}
{"id": "C24", "title": "Size mismatch on read is an error", "statement": "Reading a fixed-width value with an explicit size prefix (ReadWithSize) fails when the prefix differs from the width.", "quantifier": "every prefix value and type", "why_tests_cant": "silent acceptance is only visible from later desynchronisation", "anchors": ["marshal/reader_reflect.go: ReadWithSize"]}
{"id": "C25", "title": "WriteTail/ReadTail round-trip", "statement": "ReadTail restores the slice of numbers or bytes written by WriteTail and reports an error when bytes are left over that do not fill an element.", "quantifier": "every element type, every content, every trailing remainder", "why_tests_cant": "unbounded contents", "anchors": ["marshal/writer_reflect.go: WriteTail", "marshal/reader_reflect.go: ReadTail"]}
{"id": "C26", "title": "Decoding allocates no more than the input can fill", "statement": "marshal.Read never allocates a slice longer than the remaining input could fill.", "quantifier": "every input", "why_tests_cant": "hostile length prefixes", "anchors": ["marshal/reader_reflect.go: Read (*[]int16 ... cases), FillSlice CntSet"]}
{"id": "C27", "title": "At most one response per request", "statement": "Whatever goroutines call Respond, RespondBytes, RespondFail, Cancel, Expire, SetPending, SetInFly, ChainBookmark on one request, in any interleaving, its Responder is invoked at most once.", "quantifier": "every number of goroutines, every assignment of calls to them, every interleaving of their atomic steps, every bookmark behaviour", "why_tests_cant": "the number of interleavings is unbounded; the state word is changed both under and outside the lock", "anchors": ["request.go: chainResponse, RespondBytes, RespondFail, SetPending, SetInFly, ChainBookmark"]}
{"id": "C28", "title": "A failure always completes the request", "statement": "When a call to Cancel, Expire, IOError, ShutDown or RespondFail returns, then the Responder has been invoked (by this call or another one), unless a bookmark re-armed the request.", "quantifier": "every interleaving with other calls", "why_tests_cant": "interleavings", "anchors": ["request.go: RespondFail, chainResponse"]}
{"id": "C29", "title": "Responses carry the request's own identity", "statement": "The response passed to the Responder carries the Id and Msg of the request and the code and body of one of the respond calls made on it; a body only ever comes from RespondBytes.", "quantifier": "every interleaving of competing respond calls", "why_tests_cant": "interleavings", "anchors": ["request.go: chainResponse"]}
{"id": "C30", "title": "A performed request is inert", "statement": "After a request is performed no call changes its state or produces another response; SetPending, SetInFly and ChainBookmark return false.", "quantifier": "every later sequence of calls, every interleaving", "why_tests_cant": "unbounded futures", "anchors": ["request.go"]}
{"id": "C31", "title": "Exclusive claim of a request", "statement": "Between two re-arms of a request at most one SetPending and at most one SetInFly call returns true, so that at most one service and one worker own it.", "quantifier": "every number of competing claimers, every interleaving", "why_tests_cant": "races", "anchors": ["request.go: SetPending, SetInFly, cas", "service.go: SF.Send"]}
{"id": "C32", "title": "Bookmarks fire in reverse order, each once, before the Responder", "statement": "When a request completes, every bookmark chained on it and not yet removed is notified exactly once, last chained first, before the Responder, and none is notified after.", "quantifier": "every chain, every interleaving with chaining calls", "why_tests_cant": "unbounded chains and interleavings", "anchors": ["request.go: chainResponse", "response.go: setReq, unchain"]}
{"id": "C33", "title": "Re-armed requests can still be completed once", "statement": "A bookmark that re-arms the request (ResetToPending/ResetToNew) stops the current completion: the Responder is not invoked by it, the rest of the chain is kept, and the request can afterwards be completed again exactly once.", "quantifier": "every chain position of the re-arming bookmark, every interleaving", "why_tests_cant": "interleavings", "anchors": ["request.go: ResetToPending, ResetToNew, chainResponse, ReqContext.Respond"]}
{"id": "C34", "title": "Failure causes are distinguishable", "statement": "Cancel, timeout, I/O error, shutdown, protocol error and internal error are reported with pairwise different return codes.", "quantifier": "every pair of causes", "why_tests_cant": "settled by inspection of all pairs rather than by example", "anchors": ["response.go: Rc constants"]}
{"id": "C35", "title": "Timers expire in deadline order and never early", "statement": "The timer heap always yields the earliest deadline first: whenever the loop expires an entry its deadline has passed and no live entry has an earlier deadline.", "quantifier": "every history of arm, stop and expire operations", "why_tests_cant": "the 4-ary pairing structure reorganises itself differently for every history", "anchors": ["custom_timer.go: push, remove, putUnder, sort4, loop"]}
{"id": "C36", "title": "A stopped timer never fires; an armed timer fires at most once", "statement": "A timer only expires while it is armed: after Timer.Stop returns it is not expired any more until it is armed again (unless it had already been taken by the loop); every After leads to at most one Expire. (Stop is about timers used as the package uses them: not armed again while still armed.)", "quantifier": "every history of arm, stop and expire operations", "why_tests_cant": "histories", "anchors": ["custom_timer.go: After, Stop, remove, loop"]}
{"id": "C37", "title": "No armed timer is lost", "statement": "The set of live entries is exactly the set of armed, not stopped and not expired timers, and the loop expires every entry whose deadline has passed before it sleeps.", "quantifier": "every history of operations", "why_tests_cant": "histories", "anchors": ["custom_timer.go: push, remove, loop"]}
{"id": "C38", "title": "The timer heap never corrupts itself", "statement": "Pushing and removing always terminates, never indexes outside the heap's storage, reuses only freed cells, and keeps parent/child links mutually consistent.", "quantifier": "every history of operations", "why_tests_cant": "index-level corruption appears only for particular shapes", "anchors": ["custom_timer.go: push, remove, putUnder, sort4"]}
{"id": "C39", "title": "Wire ids are unique while in flight", "statement": "The ids put on the wire by a client connection are never 0 nor the ping id, and are pairwise different among requests in flight.", "quantifier": "every history of sends and receives (fewer than 2^32 - 1 ids per connection)", "why_tests_cant": "histories, id wrap-around", "anchors": ["net/client/connection/request_holder.go: getNext"]}
{"id": "C40", "title": "Responses are routed to the right request", "statement": "A response with wire id i completes exactly the request that was sent with id i, whatever the order of responses.", "quantifier": "every history of sends and responses, in any order, by a peer that answers frames it has received, each at most once and before 2^31 - 2^10 more frames (for other peers see C39, C41, C42)", "why_tests_cant": "all permutations of responses", "anchors": ["net/client/connection/request_holder.go: getNext, remove", "net/client/connection/connection.go: readLoop, writeLoop"]}
{"id": "C41", "title": "Connection loss fails every unanswered request", "statement": "When a connection is torn down, exactly the requests sent and not answered on it are failed.", "quantifier": "every history before the loss", "why_tests_cant": "histories", "anchors": ["net/client/connection/request_holder.go: getAll", "net/client/connection/connection.go: flushInFly"]}
{"id": "C42", "title": "Unsolicited responses are harmless", "statement": "A response carrying an id that is not in flight (unknown or duplicate) is ignored without crashing and without disturbing other requests.", "quantifier": "every id, every state", "why_tests_cant": "hostile or buggy peer", "anchors": ["net/client/connection/request_holder.go: remove"]}
{"id": "C43", "title": "Late responses are ignored", "statement": "If a request in flight was completed locally (timeout, cancel), the peer's later response for its id has no effect on any other request and frees the id slot.", "quantifier": "every history with a peer that answers frames it has received, each at most once and before 2^31 - 2^10 more frames (for other peers see C41, C42)", "why_tests_cant": "histories", "anchors": ["net/client/connection/request_holder.go: remove", "response.go: unchain"]}
{"id": "C44", "title": "Internal codes never reach the wire", "statement": "The server never sends a return code of the internal kind: it sends the configured replacement if there is one and otherwise the same code with kind Fatal; other codes are sent unchanged.", "quantifier": "every return code, every valid RCMap", "why_tests_cant": "2^32 codes times all maps", "anchors": ["net/server/connection.go: Respond", "net/server/server.go: NewServer"]}
{"id": "C45", "title": "The server answers each request exactly once", "statement": "For requests with distinct ids in flight the server sends exactly one response per request, with the request's id, in the order in which they complete; a second request reusing an id in flight replaces the first.", "quantifier": "every interleaving of arrivals and completions", "why_tests_cant": "interleavings", "anchors": ["net/server/connection.go: readLoop, Respond, writeLoop"]}
{"id": "C46", "title": "Closing a server connection never panics", "statement": "When the peer closes its side, the connection goroutines terminate without panicking (no double close of the output channel), in every interleaving.", "quantifier": "every interleaving of control, read and write loops", "why_tests_cant": "races", "anchors": ["net/server/connection.go: controlLoop, writeLoop"]}
{"id": "C47", "title": "A write failure cancels everything in flight", "statement": "After the server fails to write to a connection, all requests in flight on it are canceled and the goroutines terminate.", "quantifier": "every number of requests in flight", "why_tests_cant": "depends on queue capacity", "anchors": ["net/server/connection.go: Respond, cancelInFly, writeLoop"]}
{"id": "C48", "title": "The endpoint backlog neither loses nor duplicates requests", "statement": "Every request sent to a running endpoint that stays pending is handed to the worker channel exactly once, and requests that went to the backlog are handed over in backlog order.", "quantifier": "every number of concurrent senders, every interleaving", "why_tests_cant": "lock-free queue: interleavings", "anchors": ["buffer.go: push, loop"]}
{"id": "C49", "title": "Send on a stopped endpoint does not panic", "statement": "Calling Send after Stop does not crash the program.", "quantifier": "every interleaving of Send and Stop", "why_tests_cant": "races", "anchors": ["buffer.go: push, close", "service.go: Send, Stop"]}
{"id": "C50", "title": "Results returns one response per request", "statement": "MultiRequest.Results returns exactly one response for every request issued through it, sortable by index, and returns as soon as all requests are performed.", "quantifier": "every number of requests, every interleaving of responses with Results", "why_tests_cant": "races, lost wake-ups", "anchors": ["wait_group.go: Request, Respond, Results"]}
{"id": "C51", "title": "Each delivers every response once and then closes", "statement": "The channel returned by MultiRequest.Each delivers every response exactly once and is closed exactly once after the last.", "quantifier": "every number of requests, every interleaving", "why_tests_cant": "races", "anchors": ["wait_group.go: Each, Respond"]}
{"id": "C52", "title": "A completed multi-request releases its context", "statement": "Once all responses of a MultiRequest were obtained through Results or Each, the context no longer waits for it (WaitAll returns).", "quantifier": "every interleaving", "why_tests_cant": "races", "anchors": ["wait_group.go: Each, Results, Respond", "context.go: RemoveCanceler, WaitAll"]}
{"id": "C53", "title": "The context registry is exact", "statement": "A context waits for precisely the cancelers added and not yet removed, and WaitAll returns when there is none.", "quantifier": "every history of AddCanceler/RemoveCanceler", "why_tests_cant": "two-slot array plus map", "anchors": ["context.go: AddCanceler, RemoveCanceler, WaitAll"]}
{"id": "C54", "title": "Cancelling a context reaches every registered canceler", "statement": "After Context.Cancel returns every canceler whose AddCanceler call has returned before or returns later has been canceled or removed.", "quantifier": "every interleaving of Cancel with AddCanceler", "why_tests_cant": "races", "anchors": ["context.go: AddCanceler, Cancel, cancelAll"]}
{"id": "C55", "title": "Context.Go runs the function", "statement": "Go, GoInt, GoAsync and GoIntAsync on a live context start the given function.", "quantifier": "every live context", "why_tests_cant": "-", "anchors": ["context.go: Child, Go, GoInt, GoAsync"]}
{"id": "C56", "title": "At most N handlers run at once", "statement": "A ParallelService created with BF{N: n} never runs more than n handlers concurrently, and every finished handler gives its slot back.", "quantifier": "every schedule of arrivals and completions", "why_tests_cant": "schedules", "anchors": ["parallel_service.go: New, Loop, inc"]}
{"id": "C57", "title": "A handler's result is what the client receives", "statement": "The code and body returned by the handler are delivered to the requester unless the request was completed before; a panicking handler yields RcInternalError.", "quantifier": "every returned code and body, every interleaving with timeout and cancel", "why_tests_cant": "the code space and interleavings", "anchors": ["parallel_service.go: serv, inc", "request.go: ReqContext.Respond"]}
{"id": "C58", "title": "Requests queued at shutdown are answered", "statement": "Requests waiting in the queue of a ParallelService when it is stopped are answered with RcShutdown.", "quantifier": "every queue content", "why_tests_cant": "schedules", "anchors": ["parallel_service.go: Loop"]}
{"id": "C59", "title": "Connection counting is exact", "statement": "The client endpoint's count of established connections equals the number of connections that are usable, so that it opens replacements exactly when needed and fails queued requests only when no connection is left.", "quantifier": "every history of dial results, disconnects and resizes", "why_tests_cant": "histories", "anchors": ["net/client/server.go: fixConnections, onConnError"]}
{"id": "C60", "title": "Select requests announce as many keys as they carry", "statement": "The key count in an encoded SelectReq equals the number of key tuples that follow.", "quantifier": "every Keys value of the supported types", "why_tests_cant": "nested dynamic values", "anchors": ["sbox/select.go: CountKeys, WriteKeys, IWrite"]}
{"id": "C61", "title": "Tuples round-trip", "statement": "A tuple written by sbox.WriteTuple is read back equal by ReadRawTuple into a variable of the same type.", "quantifier": "every supported type and value", "why_tests_cant": "infinitely many types and values", "anchors": ["sbox/writer.go", "sbox/reader.go"]}
{"id": "C62", "title": "Update operations are encoded faithfully", "statement": "Each operation kind is encoded as its protocol number; an unknown kind is rejected rather than encoded as another operation.", "quantifier": "every operation byte", "why_tests_cant": "256 kinds", "anchors": ["sbox/modify.go: Op.IWrite, opmap"]}
{"id": "C63", "title": "Store/Delete/Update/RPC requests are unambiguous", "statement": "The space, flags, key/tuple, name and arguments of an encoded request can be recovered from its bytes.", "quantifier": "every request", "why_tests_cant": "unbounded contents", "anchors": ["sbox/modify.go", "sbox/rpc.go"]}
{"id": "C64", "title": "Tail fields of sbox structs are written element by element", "statement": "A struct whose last field is tagged sbox:\"tail\" or \"tailsplit\" is written as a tuple whose field count equals the number of fields that follow, each tail element (or each field of each tail struct) being one field.", "quantifier": "every struct and tail content", "why_tests_cant": "contents", "anchors": ["sbox/writer.go: structCnt, structWriter"]}
{"id": "C65", "title": "ReadMany reads every tuple it announces", "statement": "ReadMany into a slice returns the tuples of the response in order and reports the total announced.", "quantifier": "every response body", "why_tests_cant": "contents", "anchors": ["sbox/result.go: ReadMany, oneTuple, readSlice"]}
{"id": "C66", "title": "Configuration defaults", "statement": "SetDefaults fills only unset fields, is idempotent, and infers tcp for addresses containing ':' and unix otherwise; an empty address panics.", "quantifier": "every configuration", "why_tests_cant": "all combinations", "anchors": ["net/client/config.go: SetDefaults"]}
{"id": "C67", "title": "Synchronous services run at most once per request", "statement": "A service function wrapped by SF is run at most once for a request, and only if nobody else had claimed it; a Route only passes on new requests.", "quantifier": "every interleaving of competing Sends", "why_tests_cant": "races", "anchors": ["service.go: SF.Send, Route.Send"]}
{"id": "C68", "title": "Statistics callbacks fire once per completed request", "statement": "A StatService calls its callback exactly once for each request it forwarded, when that request completes.", "quantifier": "every interleaving", "why_tests_cant": "interleavings", "anchors": ["stat.go"]}
{"id": "C69", "title": "A sleeping timer loop always has a wake-up pending", "statement": "Whenever the timer goroutine sleeps, its wake-up timer is pending and due no later than the earliest armed deadline (up to the time the goroutine itself needed to set it), so no armed timer stays overdue.", "quantifier": "every interleaving of the timer goroutine, clients arming and stopping timers, the clock and the runtime timer", "why_tests_cant": "a lost wake-up needs the runtime timer to fire in the short window between setting it and waiting", "anchors": ["custom_timer.go: loop, After, Stop"]}
{"id": "C70", "title": "A stopped client connection notices that nothing is in flight", "statement": "After Stop, as soon as every request sent on a client connection has been answered, the connection's count of requests in flight is zero, so that it closes.", "quantifier": "every history of sends, responses and local completions", "why_tests_cant": "histories; needs a completion between taking an id and using it", "anchors": ["net/client/connection/request_holder.go: count", "net/client/connection/connection.go: controlLoop, writeLoop"]}
{"id": "C71", "title": "Answering never deadlocks a live server connection", "statement": "While the network works, a completed request's response is eventually written: no goroutine of a server connection waits for ever for room in the output queue or for the connection's lock.", "quantifier": "every number of requests in flight, every interleaving of completions with the read, write and control loops", "why_tests_cant": "needs 129 completions in the window between the write loop's select and its lock", "anchors": ["net/server/connection.go: Respond, writeLoop"]}
{"id": "C72", "title": "Send to an endpoint never blocks", "statement": "Once called on a running endpoint, Send returns within a bounded number of its own steps, whatever the worker, other senders, completions or Stop do (or the program crashes): a slow or dead worker does not block callers.", "quantifier": "every number of concurrent senders, every interleaving, every capacity", "why_tests_cant": "a caller would block only in rare interleavings with a full channel", "anchors": ["service.go: SimplePoint.Send", "buffer.go: push"]}
{"id": "C73", "title": "Requests sent one after another reach the worker in that order", "statement": "If Send of one request returned before Send of another was called, and both reach the endpoint's worker, the first reaches it first, although Send may bypass the backlog.", "quantifier": "every number of concurrent senders, every interleaving", "why_tests_cant": "overtaking through the fast path needs a stale read in a short window", "anchors": ["buffer.go: push, loop"]}
{"id": "C74", "title": "The backlog does not leak", "statement": "The memory of an endpoint's backlog is bounded by the number of requests waiting in it, not by the number that went through it.", "quantifier": "every history", "why_tests_cant": "a leak shows only after millions of requests in special interleavings", "anchors": ["buffer.go: push, loop"]}
{"id": "C75", "title": "Cancelling a multi-request completes all its requests", "statement": "When Cancel or Expire of a MultiRequest returns, every request obtained from it so far is completed; a request obtained later comes back completed; and a Results call that is waiting returns.", "quantifier": "every number of requests, every interleaving of responses, cancellers and the user", "why_tests_cant": "a request issued while Cancel walks over the requests, or completed while it is visited, needs exact timing", "anchors": ["wait_group.go: Cancel, Expire, performFailAll, Request, Results"]}
{"id": "C76", "title": "Cancelling a multi-request never crashes", "statement": "Cancel and Expire of a MultiRequest do not panic, whatever the requests are doing.", "quantifier": "every interleaving", "why_tests_cant": "the window is two consecutive machine instructions", "anchors": ["wait_group.go: performFailAll, Respond"]}
{"id": "C77", "title": "Context.Cancel waits for the work registered before it", "statement": "When the call of Context.Cancel or Expire that ends the context returns, everything registered with the context before (requests, multi-requests, child contexts) has been removed from it, i.e. is finished.", "quantifier": "every interleaving of Cancel with AddCanceler and RemoveCanceler", "why_tests_cant": "the two counters of the loop are read without the lock, a stale combination needs exact timing", "anchors": ["context.go: Cancel, Expire, cancelAll"]}
{"id": "C78", "title": "Context.Cancel returns", "statement": "Context.Cancel and Expire return once the things registered with the context have been given the chance to react to their cancellation.", "quantifier": "every history and interleaving", "why_tests_cant": "a hang depends on what else was done with the context before", "anchors": ["context.go: Cancel, Expire, cancelAll, Child, Go"]}
{"id": "C79", "title": "A started handler is not overtaken by the timeout", "statement": "Once a ParallelService has called the handler for a request, the request does not end with RcTimeout: the timeout cancels the handler's context but the handler still decides the response.", "quantifier": "every number of requests and slots, every interleaving", "why_tests_cant": "the timer must fire at every point of the handler's life", "anchors": ["request.go: ReqContext.Respond, chainResponse", "parallel_service.go: serv"]}
{"id": "C80", "title": "Handlers are started once, for live requests only", "statement": "A ParallelService starts a handler at most once per request, only after the request was sent to it, and not if the request is already completed.", "quantifier": "every interleaving of cancellations with the service's loop", "why_tests_cant": "the cancellation has to hit the gap between taking the request and starting its handler", "anchors": ["parallel_service.go: Loop, serv", "request.go: Context, SetInFly"]}
{"id": "C81", "title": "No more connections than configured", "statement": "A client endpoint never has more connections in use or being set up than the number configured last.", "quantifier": "every history of dial failures, disconnects, SetConnections calls and ticks", "why_tests_cant": "depends on the order in which reports of connections and ticks arrive", "anchors": ["net/client/server.go: fixConnections, onConnError, SetConnections"]}
{"id": "C82", "title": "Reducing or stopping takes effect", "statement": "After Stop, or SetConnections with a smaller number, the endpoint stops that many connections and goes on (or ends), whatever these connections are doing.", "quantifier": "every state of every connection at the moment it is stopped", "why_tests_cant": "a connection has to be caught dialling or between two requests", "anchors": ["net/client/server.go: fixConnections, Loop", "net/client/connection/connection.go: Loop, writeLoop", "service.go: SimplePoint.Stop"]}
{"id": "C83", "title": "Lost connections are replaced", "statement": "After each tick of a running client endpoint the usable connections and those being set up are as many as configured.", "quantifier": "every history of dial failures, disconnects and configuration changes", "why_tests_cant": "depends on the order of reports and ticks over an unbounded history", "anchors": ["net/client/server.go: fixConnections, onConnError, Loop"]}
{"id": "C84", "title": "Requests in flight are failed when their connection ends, not before", "statement": "When a connection neither sends requests nor reads answers any more, the requests in flight on it are failed, once; they are not failed while it still reads or sends.", "quantifier": "every interleaving of the connection's goroutines with the endpoint's loop", "why_tests_cant": "the endpoint must end in the middle of the connections' reports", "anchors": ["net/client/connection/connection.go: controlLoop, controlLoopExit, readLoop, writeLoop, flushInFly", "net/client/server.go: Loop"]}
{"id": "C85", "title": "A client endpoint never panics over its own connections", "statement": "A report of a connection always concerns a connection the endpoint knows, so its log.Panicf is never reached.", "quantifier": "every history and interleaving", "why_tests_cant": "all orders of reports of any number of connections", "anchors": ["net/client/server.go: onConnError"]}
{"id": "C86", "title": "Reading a result takes memory in proportion to the response", "statement": "ReadMany into a slice allocates no more elements than the response's bytes can hold, whatever number of tuples the response announces.", "quantifier": "every response", "why_tests_cant": "the announced number is chosen by the peer", "anchors": ["sbox/result.go: ReadMany, readSlice"]}
{"id": "C87", "title": "A client endpoint uses what was configured", "statement": "The address, network, name, number of connections, timeouts, ping interval and return code format of a ServerConfig are the ones its endpoint and connections work with.", "quantifier": "every configuration", "why_tests_cant": "all combinations", "anchors": ["net/client/config.go: ServerConfig", "net/client/server.go: NewServer", "net/client/connection/connection.go: Loop, DialTimeout"]}
{"id": "C88", "title": "Network calls are bounded by the configured timeout", "statement": "With a positive timeout every read and write on a connection that supports deadlines is made under a deadline at most the timeout away, and a successful call leaves no deadline behind; without a timeout no deadline is ever set.", "quantifier": "every sequence of calls, successes and failures", "why_tests_cant": "needs arbitrary sequences of failures and successes", "anchors": ["net/slice_reader.go: read", "net/buf_writer.go: write"]}
{"id": "C89", "title": "A stopped server ends", "statement": "After Server.Stop returns no further connection is served; once the connections told to stop have ended, Running is closed.", "quantifier": "every number of connections, every interleaving of accepts, disconnects, reports and Stop", "why_tests_cant": "the interleavings of the listener, the control loop and the connections", "anchors": ["net/server/server.go: Stop, controlLoop, listenLoop", "net/server/connection.go: controlLoop, cancelInFly, closed"]}
{"id": "C90", "title": "When Running is closed the server is done", "statement": "Once Running is closed nothing is accepted, read or written any more and no goroutine of the server is left.", "quantifier": "every history", "why_tests_cant": "depends on the order of the reports of any number of connections", "anchors": ["net/server/server.go: controlLoop", "net/server/connection.go: cancelInFly, closed"]}
{"id": "C91", "title": "Server.Stop may be called again", "statement": "Every call of Server.Stop returns, also a second one, and does not keep the server from ending.", "quantifier": "every interleaving of calls of Stop with the control loop", "why_tests_cant": "needs the second call in the window between two operations of the control loop", "anchors": ["net/server/server.go: Stop, controlLoop"]}
{"id": "C92", "title": "Auto: one server per address", "statement": "However many goroutines call Auto.Get, a server is started for an address at most once until Stop of the Auto returns, every Get of the address returns it, and a server returned by Get was started for the address asked for.", "quantifier": "every number of goroutines, every interleaving of Get and Stop, all addresses", "why_tests_cant": "the race is between an unlocked look-up and a locked one in other goroutines; a test sees a handful of schedules", "anchors": ["net/client/auto.go: Get, Stop"]}
{"id": "C93", "title": "Auto.Get does not return a stopped server", "statement": "A server returned by Auto.Get has not been told to stop by the Auto before Get returns it.", "quantifier": "every interleaving of Get with Stop", "why_tests_cant": "needs Get inside the window in which Stop goes over the servers", "anchors": ["net/client/auto.go: Get, Stop"]}
{"id": "C94", "title": "Auto: Get and Stop return", "statement": "Every call of Auto.Get and Auto.Stop returns, whatever other goroutines do with the Auto or with the servers it returned, provided the loops of the servers keep taking messages.", "quantifier": "every number of goroutines, every interleaving, all addresses", "why_tests_cant": "a hang is a property of all continuations of a run", "anchors": ["net/client/auto.go: Get, Stop", "service.go: Stop", "net/client/config.go: SetDefaults"]}
{"id": "C95", "title": "The servers of an Auto carry its configuration", "statement": "The server made for an address has that address and otherwise the configuration of the Auto, and servers of different addresses have different names.", "quantifier": "all configurations and addresses", "why_tests_cant": "for all configurations and pairs of addresses", "anchors": ["net/client/auto.go: Get", "net/client/config.go: SetDefaults, NewServer"]}
{"id": "C96", "title": "Every child of a balancer is run once", "statement": "Once the balancer was run, every child given to AddChild, before or after Run, is run exactly once, and no call panics.", "quantifier": "every number of children and goroutines, every interleaving of Run, AddChild and the balancer's loop", "why_tests_cant": "the race is between AddChild and a goroutine that Run starts; a test sees a handful of schedules", "anchors": ["balancer.go: AddChild, Loop", "service.go: Run, RunChild"]}
{"id": "C97", "title": "Stopping a balancer stops every child", "statement": "After Stop of a balancer every child is told to stop, exactly once, and the loop of the balancer ends.", "quantifier": "every number of children, every interleaving of Stop with AddChild and with the children", "why_tests_cant": "depends on all orders of AddChild, Stop and the loops of the children", "anchors": ["balancer.go: AddChild, Loop", "service.go: Stop"]}
{"id": "C98", "title": "Stop of an endpoint returns", "statement": "Every call of Stop of an endpoint returns without a panic.", "quantifier": "every interleaving of calls of Run, Stop and the loop of the endpoint", "why_tests_cant": "a hang is a property of all continuations of a run", "anchors": ["service.go: Stop, Run", "balancer.go: Loop"]}
{"id": "C99", "title": "A balancer shares out its requests", "statement": "Every request sent to a running balancer with a child is taken by exactly one child, in the order of Send.", "quantifier": "every number of children, requests and goroutines, every interleaving", "why_tests_cant": "depends on which child reads when, for every history", "anchors": ["balancer.go: AddChild, Loop", "service.go: Send, Run, Stop"]}
{"id": "C100", "title": "No request is given out twice", "statement": "Two calls of NewRequest, Send or Call, on any contexts and MultiRequests, never return the same request object, and making a request does not panic unless encoding its body does.", "quantifier": "every number of contexts, MultiRequests, services and goroutines, every interleaving, every reuse of generators", "why_tests_cant": "requests are carved out of shared arrays by pooled generators; a clash needs a particular history of releases", "anchors": ["generator.go: Request, Release, Get", "context.go: NewRequest, Done, NewMulti", "wait_group.go: Request", "parallel_service.go: Runner"]}
{"id": "C101", "title": "The body of a request is the encoding of its value", "statement": "The body of a request made from a value is exactly the encoding of that value, whatever requests were made before with the same or other contexts.", "quantifier": "all values and all histories of contexts, including bodies whose encoding panics", "why_tests_cant": "the buffer is shared by all users of a pooled generator, in every order", "anchors": ["generator.go: Request", "marshal/writer.go: Write, Written"]}
{"id": "C102", "title": "Contexts do not share their allocator", "statement": "The memory pool behind a context is handed to another context only after the first is done, even if Done is called several times, and is handed on at most once.", "quantifier": "every number of contexts and calls of Done, every interleaving", "why_tests_cant": "double release is the classic pool bug and shows only when a third party draws from the pool at the right moment", "anchors": ["generator.go: Release, Get", "context.go: Done", "wait_group.go: Each, Results"]}
{"id": "C103", "title": "A MultiRequest numbers its requests", "statement": "The requests of a MultiRequest have the Ids 0, 1, 2, ... in the order of the calls, those of a context have increasing Ids, and sorting the results puts them in the order of the calls.", "quantifier": "every number of requests, every interleaving with other contexts, every order in which responses arrive", "why_tests_cant": "for every order of responses and every history", "anchors": ["wait_group.go: Request, Results, Sort, Less", "context.go: NewRequest"]}
{"id": "C104", "title": "An Epoch stands for the moment it was made from", "statement": "NewEpoch followed by Time gives the moment back, Before orders Epochs as their moments, Sub is the time between two moments, Add undoes Sub and moves forward by a positive duration.", "quantifier": "all moments and durations", "why_tests_cant": "int64 arithmetic with wrap-around and saturation over all values", "anchors": ["epoch.go: NewEpoch, Time, Before, Sub, SubTime, Add"]}
{"id": "C105", "title": "Expiry follows the clock", "statement": "WillExpire(after) tells whether a deadline that is set will be past when the given time has gone by, and Remains and Elapsed are the exact time to and since a moment.", "quantifier": "all deadlines, durations and readings of the clock", "why_tests_cant": "int64 arithmetic over all values", "anchors": ["epoch.go: WillExpire, Remains, Elapsed", "stat.go: Respond"]}
{"id": "C106", "title": "A timer does not fire before its time", "statement": "A timer set by After(d) expires only when the clock is more than d after the clock at the call.", "quantifier": "all durations, all histories of After, Stop and rounds of the timer loop, all readings of the clock", "why_tests_cant": "for all durations and histories", "anchors": ["custom_timer.go: After, loop", "epoch.go: Add, NowEpoch"]}
{"id": "C107", "title": "Decoding arbitrary bytes returns", "statement": "Read and ReadTail of any bytes whatever, into a variable of any supported type with any old contents, return with a value or an error: they do not panic and do not loop for ever.", "quantifier": "all byte strings, all types, all old contents of the variable", "why_tests_cant": "the bytes come from the network; the set of inputs is infinite for every type and the types nest without bound", "anchors": ["marshal/reader_reflect.go: Read, ReadTail, WithSize, WithCount, SetSize, SetCount, FillSlice, FillPtr", "marshal/reader.go: Slice, Intvar"]}
{"id": "C108", "title": "A truncated message is rejected", "statement": "A Read that reports no error has consumed some first bytes of the input, and would have returned the same value whatever followed them; an encoding cut short anywhere is therefore never decoded without an error, and no encoding is the beginning of another of the same type.", "quantifier": "all types, values and points of truncation, all old contents and all continuations", "why_tests_cant": "for every type, value and cut", "anchors": ["marshal/reader_reflect.go: Read", "marshal/reader.go: Slice, Uint64var", "marshal/writer_reflect.go: Write"]}
{"id": "C109", "title": "A type's codec is built once and seen only complete", "statement": "However many goroutines use the codecs of however many types for the first time at once, all calls for a type get the same codec; at the moment a call gets it, it and every codec it is made of are completely filled, also for types that refer to themselves; and no codec is changed after that.", "quantifier": "all types, also recursive ones and ones whose codec cannot be built, all numbers of goroutines and all interleavings", "why_tests_cant": "interleavings of first uses, in which unlocked reads meet a map being extended", "anchors": ["marshal/writer_reflect.go: WriterFor, _writer", "marshal/reader_reflect.go: ReaderFor, _reader", "sbox/writer.go: writer, _writer", "sbox/reader.go: reader, _reader"]}
{"id": "C110", "title": "A type that cannot be encoded fails every time and spoils nothing", "statement": "A call for the codec of a type panics exactly if the type, or a type it is made of, is not supported, however often and by however many goroutines it was tried before; the calls for other types are not affected, and no call waits for ever.", "quantifier": "all types and all interleavings of calls that fail with calls that succeed", "why_tests_cant": "the failing call leaves a half-built table and a lock behind a panic", "anchors": ["marshal/writer_reflect.go: WriterFor, _writer, Fill", "marshal/reader_reflect.go: ReaderFor, _reader, Fill"]}
{"id": "C111", "title": "Concurrent calls of Write do not disturb each other", "statement": "However many goroutines call marshal.Write and WriteTail at once, a call returns exactly the bytes the encoder gives for its own value, and panics only if the encoder does; the bytes stay so whatever is written later, until the caller changes them; writing into one result changes no other; and no call waits for another.", "quantifier": "all values, all numbers of calls, all interleavings, all choices of the pools, all panics of other calls, all later writes into results", "why_tests_cant": "the buffers are recycled through a pool and a channel while results made of them are still in use", "anchors": ["marshal/marshal.go: Write, WriteTail, writerPool", "marshal/writer_reflect.go: WithSize, twriters, puttwriter", "marshal/writer.go: Written, ensure"]}
{"id": "C112", "title": "Concurrent calls of Read do not disturb each other", "statement": "However many goroutines call marshal.Read, marshal.ReadTail, sbox.ReadFirst and sbox.ReadMany at once, each call gives the result, the error or the panic it would give on a Reader of its own, whatever was read before with the Reader it is given; and no call waits for another.", "quantifier": "all inputs and targets, all numbers of calls, all interleavings, all choices of the pool, all panics and errors of other calls", "why_tests_cant": "Readers are recycled through a pool and a one-place cache taken with compare-and-swap", "anchors": ["marshal/marshal.go: Read, ReadTail, readerPool", "sbox/result.go: ReadFirst, ReadMany, readerCache"]}
{"id": "C113", "title": "What is written does not depend on what was written before", "statement": "The bytes marshal.Write and WriteTail produce for a value are the same whichever types the program used before, in whatever order and by however many goroutines they were used for the first time.", "quantifier": "all sets of types (nested, self-containing, interfaces, types with their own IWrite), all values, all histories and interleavings of first uses", "why_tests_cant": "the table of codecs is built on demand and a type that is still being built is visible in it with no size", "anchors": ["marshal/writer_reflect.go: WriterFor, _writer, Fill, FillArray, FillSlice, FillStruct, Size"]}
{"id": "C114", "title": "Timers behave the same whichever heap they are on", "statement": "However many goroutines arm and stop timers, and however often the package adds timer heaps, After and Stop never panic, a timer always stays on the heap it was first put on, and the guarantees about timers hold across all of them: a timer fires only while it is armed and after its deadline, never after a Stop that has returned, once per After, in the order of the deadlines, and an armed timer whose deadline is past does fire.", "quantifier": "all numbers of goroutines, timers and processors, all interleavings, all deadlines and clock readings", "why_tests_cant": "the heap is chosen with an atomic counter while another goroutine may be adding heaps to the slice it is taken from", "anchors": ["custom_timer.go: Timer, After, Stop, nextHeap, getHeap, heaps, heapI, heapN, newHeap, loop"]}
{"id": "C115", "title": "Values of named types are written in the documented layout", "statement": "What marshal.Write and WriteTail send for a value of any type - types that contain themselves, interfaces, types with their own IWrite, ISize and ICount - is the documented layout: numbers little-endian, elements and fields in order, counts and sizes as the tags say, a pointer as what it points to, an interface as what it holds, a type with IWrite as its IWrite writes it.", "quantifier": "all tables of types, all values, all histories of first uses", "why_tests_cant": "the layout goes through stored sizes, dynamic types and user methods, over all recursive values", "anchors": ["marshal/writer_reflect.go: Write, WriteTail, Fill, FillArray, FillSlice, FillPtr, FillStruct, Size, WithSize, Count, WithCount, writeStruct, fillauto"]}
{"id": "C116", "title": "Values of named types are read back", "statement": "What marshal.Write (WriteTail) sent for a value of any type - types that contain themselves, interfaces, types with their own IRead, ISetSize and ISetCount - Read (ReadTail) of a pointer to a variable of that type reads to its end and no further, without error, and the variable then holds the value, except for fields marked skip, whatever it held before.", "quantifier": "all tables of types, all values, all contents of the variable, all bytes that follow, all histories of first uses on either side", "why_tests_cant": "reading goes through stored sizes, the contents of the variable and user methods, over all recursive values", "anchors": ["marshal/reader_reflect.go: Read, ReadTail, Fill, FillArray, FillSlice, FillPtr, FillStruct, SetSize, WithSize, SetCount, WithCount, structFixed, structTail, fillautotail"]}
{"id": "C117", "title": "What is read does not depend on which types were used before", "statement": "Reading given bytes into a given variable gives the same value and consumes the same bytes in whatever order, and from whichever goroutines, the program used its types before.", "quantifier": "all tables of types, all histories and interleavings of first uses, all bytes", "why_tests_cant": "the table of codecs is built on demand and a type that is still being built is visible in it with no size", "anchors": ["marshal/reader_reflect.go: ReaderFor, _reader, Fill, FillSlice, FillStruct"]}
{"id": "C118", "title": "A client and a server of this library, end to end", "statement": "A request sent with a connected client connection reaches the server's handler with its type and body unchanged, once, in the order of sending; the answer a client's request gets is the code and body with which the handler completed that very request; and once the server has nothing left to do, its connection up, every answer given by a handler has come or comes out at the client by just reading on.", "quantifier": "every number of requests with every type and body, every schedule of the goroutines of both ends, every moment and order in which handlers complete, every way in which the two byte streams are cut into pieces, every failure of a socket", "why_tests_cant": "a test runs one schedule with one fragmentation; the claim joins framing, buffering, ids, the queues of both ends and their order, each of which can lose, duplicate, mix up or hold back an answer", "anchors": ["net/client/connection/connection.go: Connection.Loop, readLoop, writeLoop", "net/server/connection.go: Connection.readLoop, writeLoop, Respond", "net/header.go: HeaderWriter, HeaderReader", "net/client/connection/request_holder.go"]}
{"id": "C119", "title": "A round trip completes", "statement": "Left to themselves, a client connection and a server connection of this library come to rest after finitely many steps. At rest, with both connections up, every request that the client has sent has been read by the server, unchanged and in the order of sending, and it has completed at the client, unless its handler still has it; and if the completion is an answer it is the one that the handler gave.", "quantifier": "all histories of sends, completions by handlers, pings, time-outs and losses; all schedules of the goroutines of both ends; all ways of cutting the byte streams; all outcomes of socket writes", "why_tests_cant": "Progress under all schedules: a test sees one schedule and one fragmentation, and waits for a while instead of for ever.", "anchors": ["net/client/connection/connection.go: readLoop, writeLoop", "net/client/connection/request_holder.go", "net/server/connection.go: readLoop, writeLoop, Respond", "net/header.go", "net/buf_writer.go: Flush", "net/slice_reader.go"]}
{"id": "C120", "title": "A request with a timeout is answered", "statement": "Once a request has been given a timeout, by SetTimeout or by Send of an endpoint with a Timeout, and the time is over, its Responder is called exactly once, with somebody's answer or with RcTimeout; the library comes to rest after finitely many steps and never locks itself out.", "quantifier": "every number of requests, goroutines and timer heaps; every schedule of SetTimeout, Send, answers, cancellations and expiries; every reading of the clocks", "why_tests_cant": "The timeout, the answer, the cancellation and the timer heap race for the request; a test sees a few of the interleavings and cannot show that a request is never forgotten.", "anchors": ["request.go: SetTimeout, Expire, RespondBytes, RespondFail, chainResponse", "service.go: EndPoint.Send", "custom_timer.go: After, Stop, loop, push, pop, remove"]}
{"id": "C121", "title": "A completed request holds no timer", "statement": "When the call that completed a request has returned, no timer heap holds the request any longer, so it is neither kept in memory until its deadline nor expired later.", "quantifier": "every number of requests, goroutines and timer heaps; every schedule; every reading of the clocks", "why_tests_cant": "A timer left behind has no visible effect until its deadline, and which interleavings leave one behind is not known to a test.", "anchors": ["request.go: SetTimeout, chainResponse", "service.go: EndPoint.Send", "custom_timer.go: After, Stop, remove"]}
{"id": "C122", "title": "No timeout before its time", "statement": "A Responder gets only a code that somebody answered with, or RcTimeout; RcTimeout from a timer only if the request was given a positive timeout d before, when some clock read t, and the clock of the timer loop has since read more than t + d.", "quantifier": "every number of requests, goroutines and timer heaps; every schedule; every reading of the clocks", "why_tests_cant": "All interleavings of arming, stopping and expiring of all requests on a heap; a mix-up in the heap would time out another request.", "anchors": ["request.go: SetTimeout, Expire, RespondFail, chainResponse", "custom_timer.go: After, Stop, loop, push, pop, remove"]}
{"id": "C123", "title": "Cancelling a context completes its requests", "statement": "When Cancel or Expire of a context returns, every request made with the context has been answered exactly once: with RcCanceled, or with an answer somebody gave before.", "quantifier": "every number of contexts, requests and goroutines; every interleaving of NewRequest, Send, answers, Cancel and Done", "why_tests_cant": "Cancel, NewRequest and an answer that arrives race for the same request, in every interleaving.", "anchors": ["context.go: Cancel, Expire, cancelAll, NewRequest, AddCanceler, RemoveCanceler, contextBookmark", "request.go: Cancel, RespondFail, RespondBytes, chainResponse"]}
{"id": "C124", "title": "Cancelling a context cancels the whole tree of work below it", "statement": "Cancelling a context cancels, besides its requests, its children and the contexts of the handlers that have taken its requests, and so on downwards: every request issued through any of these contexts is answered.", "quantifier": "trees of any shape and depth, every interleaving", "why_tests_cant": "The tree may have any depth, and goes through user code and other goroutines at each level.", "anchors": ["context.go: Cancel, cancelAll, Child, Done, NewRequest", "request.go: Context, ReqContext.Respond, chainResponse"]}
{"id": "C125", "title": "A request made with a cancelled context is answered at once", "statement": "When NewRequest is called on a context cancelled or expired before, then at its return the Responder of the request has been called exactly once, with RcCanceled.", "quantifier": "every number of contexts, requests and goroutines; every interleaving", "why_tests_cant": "The answer must be there in all interleavings with everything else that happens to other requests and contexts.", "anchors": ["context.go: NewRequest", "request.go: Cancel, RespondFail, chainResponse"]}
{"id": "C126", "title": "After Results a MultiRequest can be used again", "statement": "After Results has returned, further requests can be made with the same MultiRequest; the next call of Results returns exactly one response for each request made since the previous call, as soon as they are completed, and Each may be used for the last ones.", "quantifier": "every number of rounds and requests; every interleaving of responses, cancellers and the user", "why_tests_cant": "Responses of one round may arrive while the next begins; counters and flags are never reset, so a mistake shows only after some rounds and in some interleavings.", "anchors": ["wait_group.go: MultiRequest.Request, Results, Each, Respond, Cancel"]}
{"id": "C127", "title": "After Each a MultiRequest can be used again", "statement": "After Each has returned, requests can be made and Results can be called as before.", "quantifier": "every history of calls on one MultiRequest; every interleaving", "why_tests_cant": "What Each leaves behind matters only for later calls, in all interleavings with responses still to come.", "anchors": ["wait_group.go: Each, Respond, Results"]}
{"id": "C128", "title": "A context knows the MultiRequests with unfinished requests", "statement": "As long as a request made with a MultiRequest of a live context is not completed, the MultiRequest is registered with the context, so that cancelling the context reaches the request and WaitAll waits for it.", "quantifier": "every history of calls on one MultiRequest; every interleaving", "why_tests_cant": "The registration is given up by whichever goroutine counts the last response; that this is never too early is a statement about all interleavings.", "anchors": ["context.go: NewMulti, RemoveCanceler", "wait_group.go: Results, Respond"]}
{"id": "C129", "title": "The timeout of a MultiRequest is kept", "statement": "Once SetTimeout was called on a MultiRequest, every request made with it is completed, by the expiry of the timer if not before: unless all are completed the timer is pending, and after it has expired all requests come to be completed.", "quantifier": "every history of calls on one MultiRequest; every interleaving with responses and the timer", "why_tests_cant": "The timer is stopped by whichever goroutine counts the last response, and may expire at any moment.", "anchors": ["wait_group.go: SetTimeout, Request, Respond, Expire, performFailAll"]}
{"id": "C130", "title": "A finished MultiRequest holds no timer", "statement": "Once all responses of a MultiRequest were obtained through Results or Each, its timer is not armed any more.", "quantifier": "every history of calls on one MultiRequest; every interleaving", "why_tests_cant": "Who stops the timer depends on the order in which the responses and the call of Results or Each come.", "anchors": ["wait_group.go: SetTimeout, Results, Each, Respond", "custom_timer.go: Timer.Stop"]}
{"id": "C131", "title": "ReadMany fills what it is given", "statement": "ReadMany into an array stores as many tuples of the response as the array has room for, in order, leaves the other elements alone and reports how many it stored; into a slice it stores all, in a new slice; into a single variable it stores the first and reports 1, or 0 if there is none.", "quantifier": "every response, every array length, every element type that can be read", "why_tests_cant": "The number of tuples, the length of the array and the element type are unbounded and vary independently.", "anchors": ["sbox/result.go: ReadMany, readInterface, readArray, readSlice, oneTuple"]}
{"id": "C132", "title": "ReadMany into a list of destinations", "statement": "Given a slice of pointers, a slice of slices or a slice of interfaces, ReadMany stores each tuple through the element with its index.", "quantifier": "every response, every list of destinations", "why_tests_cant": "The code accepts these destinations; whether any response can be read into them is a question about all responses.", "anchors": ["sbox/result.go: readFixedArray, readInterfaceArray, oneTuple", "sbox/reader.go: sliceAuto"]}
{"id": "C133", "title": "Tuples of another length than the variable", "statement": "A struct read from a tuple takes the leading fields of the tuple: fields the tuple does not have are left as they were, further fields of the tuple are ignored, and the following tuples are not affected. An array is read from a tuple with more fields, or an error is reported.", "quantifier": "every struct or array type, every tuple", "why_tests_cant": "Stored tuples grow with the schema of their space; every combination of lengths may occur.", "anchors": ["sbox/reader.go: FillStruct, sliceFixed, ReadRawTuple, ReadSizedTuple", "sbox/result.go: oneTuple"]}
{"id": "C134", "title": "Reading tuples from arbitrary bytes returns", "statement": "Whatever bytes a server sends, reading a tuple or a list of tuples returns, with a value or an error, and does not panic.", "quantifier": "every byte string, every type", "why_tests_cant": "The bytes come from outside; tests try few of them.", "anchors": ["sbox/reader.go: TReader", "sbox/result.go: ReadFirst, ReadMany", "marshal/reader.go: Intvar, Slice, String"]}
{"id": "C135", "title": "Floats keep their bits", "statement": "A float32 in a field, an array or a slice is written with the bytes of its value and is read back bit by bit as it was written, infinities, subnormal numbers and NaNs included; addressable and not addressable values give the same bytes.", "quantifier": "every float32 and every type that contains some", "why_tests_cant": "There are 2^32 values, on paths that convert to float64 and back and on paths that do not.", "anchors": ["marshal/writer.go: Float32Val", "marshal/writer_any.go: Float32slVal", "marshal/reader.go: Float32Val", "marshal/reader_any.go: Float32slVal"]}
{"id": "C136", "title": "Sorted results are in the order of the requests", "statement": "The responses returned by Results, sorted with Sort, are in the order in which their requests were made, one for each request made since the previous call.", "quantifier": "every number of rounds and requests; every order of the answers; every interleaving; whatever way sort.Sort sorts", "why_tests_cant": "The order of the answers is up to the network and the scheduler.", "anchors": ["wait_group.go: MultiResponse.Less, Swap, Len, Sort, MultiRequest.Request, Results", "request.go: chainResponse"]}
{"id": "C137", "title": "A function offered by a server can be called", "statement": "If the handlers of a server decode what they are sent, apply a function and respond with its value, then what a client reads from an answer without error is the function of the value that it called with; and a call returns once the two connections have come to rest, unless a handler still has it.", "quantifier": "every type of arguments and results, every function, every number of concurrent calls, every schedule, fragmentation and socket failure", "why_tests_cant": "It is about all types and functions, and about all ways in which two programs and a network can interleave.", "anchors": ["request.go: SendMsgBody, Send, CallMsgBody, Call, Respond, RespondBytes, Body.Read", "net/client/connection/connection.go", "net/server/connection.go", "marshal/marshal.go: Write, Read"]}
{"id": "C138", "title": "A Reader of a body reads it from its beginning", "statement": "A Reader obtained from a body, by Reader, Read2 or ReadTail2, reads the value that the body was made from.", "quantifier": "every type, value and body", "why_tests_cant": "It is about every body; there is no test of these methods.", "anchors": ["request.go: Body.Reader, Body.Read2, Body.ReadTail2"]}
{"id": "C139", "title": "Values written with their size are read back", "statement": "What WriteWithSize or WriteValueWithSize has written is the size of the value's encoding followed by the encoding, and ReadWithSize, or ReadValueWithSize, with the same kind of size restores the value and leaves the rest of the input.", "quantifier": "every type and value, every kind of size prefix, every input that follows", "why_tests_cant": "It is about every type a program can define and every value.", "anchors": ["marshal/writer_reflect.go: WriteWithSize, WriteValueWithSize", "marshal/reader_reflect.go: ReadWithSize, ReadValueWithSize"]}
{"id": "C140", "title": "Done tells whether a message was read completely", "statement": "After a value has been read from a message, Done is true exactly if nothing follows the value in the message, and Error is nil exactly then.", "quantifier": "every type and value, every input that follows, every state of a Reader", "why_tests_cant": "It is about every type, value and input.", "anchors": ["marshal/reader_reflect.go: Reader.Done, Reader.Error"]}
{"id": "C141", "title": "A context reports how it ended", "statement": "Alive of a context is false as soon as Cancel or Expire has taken effect on it, and stays false. A context that has ended reports a timeout if it was Expire that ended it, that is if Expire was called or the request it was made for has timed out; it reports a cancellation if Cancel was called, or the request was cancelled, or the context above has been cancelled. The report never changes.", "quantifier": "every tree of contexts and requests, every schedule of calls of Cancel, Expire, Child, NewRequest, Context, Done and of answers", "why_tests_cant": "Cancel, Expire and the end of the context above race for the state; tests see a few schedules.", "anchors": ["context.go: Context.Alive, Timeout, Cancel, Expire, Child, NewRequest", "request.go: ReqContext.Respond"]}
{"id": "C142", "title": "A call that nobody disturbs returns", "statement": "If no other call is under way, NewRequest, Child, Done, Cancel, Expire and every way to answer a request return after finitely many steps, however many requests, contexts and handlers depend on each other. When Cancel or Expire of a context that was alive has returned, every request made through that context has its response, exactly one.", "quantifier": "every tree of contexts, requests and handlers that any history of calls can lead to, every such call", "why_tests_cant": "Cancel loops until nothing is registered any more and calls itself through the requests it cancels, which may have handlers with contexts of their own; whether it ends must be shown for every depth and number of these.", "anchors": ["context.go: Context.Cancel, Expire, cancelAll, NewRequest, Child, Done, AddCanceler, RemoveCanceler", "request.go: Request.Cancel, RespondBytes, RespondFail, ReqContext.Respond, contextBookmark.Respond"]}
{"id": "C143", "title": "SetTimeout of a MultiRequest counts once", "statement": "The timer of a MultiRequest expires at most once, and only if SetTimeout was called on it, however often SetTimeout is called and in how many rounds the MultiRequest is used. A request ignores SetTimeout calls of its own exactly if it was made after SetTimeout of the MultiRequest.", "quantifier": "every schedule of Request, SetTimeout, Results, Each, Cancel, Expire, answers and expiries", "why_tests_cant": "the expiry, the last completion and further calls race; tests see a few schedules.", "anchors": ["wait_group.go: MultiRequest.SetTimeout, Request, Respond, Expire"]}
{"id": "C144", "title": "Calls on contexts and requests never lock each other out", "statement": "Calls of NewRequest, Child, Done, Cancel and Expire on contexts, and calls that answer requests, may overlap in any way, on any tree of contexts, requests and handlers. From every situation they can get into, all of them can still return without any further call being made, provided Done has been called for every child (and not before Child returned). If Done is missing for some children, calling it for them is enough. Without it this is false: Cancel goes round for ever.", "quantifier": "every set of overlapping calls, every tree of contexts, handlers and requests, every schedule, every point at which the calls have got stuck or not", "why_tests_cant": "A deadlock needs one particular interleaving of several goroutines in a tree of some depth; a test sees a few interleavings and cannot tell a deadlock from a slow run.", "anchors": ["context.go: Context.NewRequest, Context.AddCanceler, Context.RemoveCanceler, Context.cancelAll, Context.Cancel, Context.Expire, Context.Child, Context.Done", "request.go: Request.RespondBytes, Request.RespondFail, Request.chainResponse, ReqContext.Respond"]}
{"id": "C145", "title": "A stopped server has answered what it read", "statement": "When Running of a stopped server is closed, every ping and every request that any of its connections has read or ever will read has been answered on the wire before, each request with the code and body its handler gave it. The server gets there: after Stop, when the handlers have completed the requests they were given, it does finitely many steps more and then Stop has returned and Running is closed. It does not panic on the way.", "quantifier": "every number of connections, every schedule of the server's and the connections' goroutines, every traffic, every point at which Stop is called", "why_tests_cant": "The answer to a request, the end of a connection's reader and writer, the reports of the connections and Stop race in many goroutines; tests see a few schedules.", "anchors": ["net/server/server.go: Server.Stop, controlLoop, listenLoop", "net/server/connection.go: Connection.Stop, Respond, cancelInFly, closed, controlLoop, readLoop, writeLoop"]}
{"id": "C146", "title": "A client endpoint completes each request once, on the connection that wrote it", "statement": "Requests sent to a client endpoint go out on whatever connection is free. Each is written at most once, on one connection only, never before it was sent and never after it is complete, and it completes at most once. An answer it gets is a response that arrived on the connection it was written on, with the id it was written under. What the endpoint fails because it has no connection left was never written. A request that was sent is complete, or waits, or was written on a connection; and when that connection ends, all that was written on it completes, whether the endpoint runs or was stopped. The endpoint does not panic.", "quantifier": "every number of connections, every schedule of the endpoint, the loops of the connections, users, timers and peers, every point at which connections are lost or the endpoint is stopped", "why_tests_cant": "The loops of all connections, the endpoint, timeouts, answers and losses race for the same requests; tests see a few schedules.", "anchors": ["net/client/server.go: Server.Loop, onConnError, AllDisconnected, fixConnections", "net/client/connection/connection.go: Connection.readLoop, writeLoop, controlLoop, controlLoopExit, Loop, flushInFly", "net/client/connection/request_holder.go: RequestHolder", "service.go: SimplePoint.Send"]}
{"id": "C147", "title": "A request is handled at most once, whatever connection it takes", "statement": "A client endpoint of this library whose connections end at servers of this library: every request that a handler sees is one that a user sent, with its type and body. No request is seen by a handler twice, be it on two connections, by two servers or on one; each is answered at most once. An answer the user gets is the one which the handler gave to that very request; read into a variable of the result's type it is the function of the request's argument, if that is what the handlers compute. Once a connection and the server at its other end are at rest and both are up, every request written on it is complete or with its handler. Neither end makes the client panic.", "quantifier": "every number of connections and servers, every schedule of both ends, every fragmentation of the streams, every failure of sockets, timeout and cancellation, every type and value the codec is right for", "why_tests_cant": "The claim is about all interleavings of two programs connected by several streams, and about every place where a stream is cut or lost.", "anchors": ["net/client/server.go: Server.Loop", "net/client/connection/connection.go: Connection.Loop, readLoop, writeLoop", "net/client/connection/request_holder.go: RequestHolder", "net/server/connection.go: Connection.readLoop, writeLoop, controlLoop", "net/header.go: HeaderReader, HeaderWriter"]}
{"id": "C148", "title": "Valid means answered", "statement": "A response for which Valid() or Restartable() holds is an answer: its code and body were given by a call of Respond, RespondBytes or RespondFail, not by Cancel, Expire, IOError or ShutDown. When a request is completed by one of those four, the response is neither valid nor restartable and has no body; its code tells which of them it was. No response is both valid and restartable. The code a client gets over the network has the kind the server's code had.", "quantifier": "every return code, every number of goroutines and their calls on the request, every schedule, every behaviour of bookmarks, every connection mode", "why_tests_cant": "A caller who retries on Restartable and trusts Valid relies on it for every code and every race of the calls that complete a request.", "anchors": ["response.go: Response.Valid, Response.Restartable, RcKindMask, RcShutdown, RcCanceled", "request.go: Request.Cancel, Expire, IOError, ShutDown, RespondFail, RespondBytes", "net/header.go: HeaderReader.ReadResponse"]}
{"id": "C149", "title": "An endpoint is started once", "statement": "However many goroutines call Run on an endpoint, one call starts it and every other panics; its loop is entered once. A Send that runs at the same time either panics because the endpoint is not running, or hands its request over; it never meets an endpoint that is half made, and after a Run has returned it does not panic. The loop gets every request whose Send returned, once, in the order of the sends.", "quantifier": "every number of goroutines calling Run and Send, every schedule", "why_tests_cant": "Tests start endpoints from one goroutine; what overlapping calls do depends on the schedule.", "anchors": ["service.go: Run, SimplePoint.Run, SimplePoint.Runned, SimplePoint.Send, SimplePoint.ReceiveChan"]}
{"id": "C150", "title": "A stopped ParallelService stops soon", "statement": "After Stop was called, a ParallelService made with BF{N: n} starts at most n + 1 handlers more, and takes at most one more request from its queue before Stop returns. Stop returns without waiting for handlers, after at most five steps of the service's loop. The order in which the loop looks at its channels changes nothing else: all that holds of a loop that chooses freely among what is ready holds of it.", "quantifier": "every number of slots and requests, every schedule of handlers, senders and the loop, every point at which Stop is called", "why_tests_cant": "Which channel the loop finds ready first depends on the schedule; tests cannot place Stop between two of its selects.", "anchors": ["parallel_service.go: ParallelService.Loop, ParallelService.serv, ParallelService.inc", "service.go: SimplePoint.Stop"]}
{"id": "C151", "title": "The tag of a field means the same to Write and to Read", "statement": "Whatever text stands in the iproto tags of a struct, the writer and the reader make the same of it: both refuse the type or both use the same fields with the same frames and varints. A tag made of skip, ber, size(..) and cnt(..), in any order and number, asks for what these words say; the struct is refused exactly when a tag asks for a size and a count or when an exported field follows one with size(no). A word that begins a size or a count and names no known width is refused; a word that is no directive at all should be refused too, and a field that is left out should have no effect.", "quantifier": "every text of a tag; every list of directives; every list of fields, exported or not", "why_tests_cant": "There are infinitely many tags, and two separate copies of the parser; a test tries a few tags on each.", "anchors": ["marshal/writer_reflect.go: FillStruct, writeStruct, FieldWriter", "marshal/reader_reflect.go: FillStruct, structFixed, structTail, FieldReader"]}
{"id": "C152", "title": "Each may be called again", "statement": "Every call of Each on a MultiRequest returns a channel of its own; each answer is sent on exactly one of these channels, no send waits for a receiver, and after the last answer every one of the channels is closed, whatever the moments at which Each is called.", "quantifier": "every number of requests, every number of calls of Each by one goroutine, every interleaving with the answers", "why_tests_cant": "A test calls Each a second time at a few moments; what becomes of the first channel, and of a call that meets the last answer, depends on the schedule.", "anchors": ["wait_group.go: MultiRequest.Each, MultiRequest.Respond"]}
{"id": "C153", "title": "A tree of balancers starts and stops as one", "statement": "Balancers may be children of balancers, to any depth. After Run of the root every endpoint of the tree is started once, no loop panics, and all take their requests from the channel of the root. A Stop of the root, called at any time after Run, also while the tree still starts, returns, and every loop of the tree ends; both take at most 4 moves per endpoint. This includes endpoints added, before Run or while it runs, to any balancer of the tree.", "quantifier": "every tree of balancers and other endpoints, every interleaving of their loops, of Run and Stop of the root, and of AddChild to balancers that were not run or that have started their children and were not stopped", "why_tests_cant": "The loops of all balancers start their children at the same time, and Stop may meet any of them half way; a test tries a few trees and moments.", "anchors": ["balancer.go: BalancerPoint.Loop", "service.go: SimplePoint.Run, SimplePoint.RunChild, SimplePoint.Stop"]}
{"id": "C154", "title": "Each may be called by several goroutines at once", "statement": "When several goroutines call Each on one MultiRequest at the same time, every call returns a channel of its own, no answer is lost or sent twice, and no send waits for a receiver.", "quantifier": "every number of requests, of goroutines and of calls, every interleaving of them with the answers", "why_tests_cant": "What a call returns depends on what happens between two of its lines; a test cannot place another whole call there.", "anchors": ["wait_group.go: MultiRequest.Each, MultiRequest.Respond"]}
{"id": "C155", "title": "Results may be called by several goroutines", "statement": "When several goroutines call Results on one MultiRequest, no call returns before all requests are answered, the first that returns gets all the answers, each once, the others get none, and every call returns when all requests are answered.", "quantifier": "every number of requests, of goroutines and of calls, every interleaving of them with the answers, every choice of the goroutine that is woken", "why_tests_cant": "Who waits at the moment of the last answer, and who is woken, depends on the schedule.", "anchors": ["wait_group.go: MultiRequest.Results, MultiRequest.Respond"]}
{"id": "C156", "title": "A dial accepts exactly a ping as the answer to its ping", "statement": "Whatever bytes the peer sends first and however the reads cut them, the ping of a dial succeeds if and only if the first twelve bytes are a header with the ping type and the ping id; it then takes these twelve bytes and no more. Any other twelve bytes, and an immediate end of the stream, make it fail.", "quantifier": "every byte stream, every way the reads split it", "why_tests_cant": "Two fields of 32 bits and an arbitrary length field decide; tests try a few of the values and one fragmentation.", "anchors": ["net/header.go: HeaderReader.ReadPing", "net/client/connection/connection.go: Connection.Loop"]}
