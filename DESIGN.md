# Formal model of go-iproto in Rocq (Coq 8.16.1)

## Conventions

* `rocq/theories/<Area>Model.v` – the model, function by function; each definition cites
  the file and lines of /repo it models and states its simplifications.
* `rocq/theories/<Area>Spec.v` – small independent specifications (no model helpers).
* `rocq/theories/<Area>Proofs.v` – lemmas.
* `rocq/theories/<Area>Props.v` – the property theorems `Cnn_…`, each followed by
  `Print Assumptions`, plus `Example`s meeting the hypotheses on concrete data.
* Bytes are `list Z` (each byte in 0..255); Go integers are `Z` with explicit wrap-around
  (`mod 2^k`) wherever overflow can matter; panics and errors are explicit values.
* Concurrent code is an executable small-step machine (`step : state -> label -> option state`,
  one label = one atomic action of one goroutine); theorems quantify over all label lists.
* A property that is false of the code is kept in full in `properties.jsonl`; the refutation is
  a theorem `Cnn_…_refuted` with a concrete witness and the part that does hold is a theorem
  with suffix `_partial` (or an unconditional theorem about the true part). Its manifest status
  is `partial`.

## Trusted base

* **Kernel.** Coq 8.16.1 (`coqc`), with all kernel checks on, `vm_compute` included. The files use only the standard library
  (`ZArith`, `List`, `Bool`, `Arith`, `Lia` and the like).
* **Assumptions.** Every property theorem is followed by `Print Assumptions`; all of them print
  "Closed under the global context". There are no axioms, parameters or open obligations. (The build loads
  `Coq.ssr.ssrunder`, whose module type declares seven names; no theorem depends on them.)
* **The model.** That the definitions of the `*Model.v` files describe the code is not checked by a machine. Each cites the
  lines it was written from and states what it leaves out. `seeded/LOG.jsonl` records what happened to the theorems when the
  models were changed the way a bug would change the code (`tools/mutate.py`).
* **Go.** The meaning of the language constructs used: slices and their backing arrays, maps, wrap-around of fixed-width
  integers, select, unbuffered and buffered channels, `close`, `sync.Mutex`, `sync.Cond` (a signal without a waiter is lost),
  `sync/atomic`, `time.Timer`, `reflect`, `sort.Sort` by its contract, and panics.
* **Memory.** The machines of the concurrent parts are sequentially consistent: one step is one access to a shared field, one
  channel operation or one critical section, as each model says. A data race that the Go memory model leaves undefined is
  modelled as an interleaving of atomic accesses. The schedule is adversarial; theorems about progress say that a state in which
  nothing is left to do is the right one, and that every schedule which does not idle reaches it (ranking function), so they need
  no more than: a goroutine that can move is some day allowed to.
* **Resources.** Memory is unbounded unless the property is about allocation (C26, C86). Counters of 64 bits do not wrap where
  the model says so; 32-bit counters do (request ids in `HolderModel.v`).

### What is modelled

| File of /repo | Model | Left out |
|---|---|---|
| `net/buf_writer.go`, `net/slice_reader.go`, `net/header.go`, `net/consts.go` | `WireModel.v`; deadlines in `ConfModel.v` | `log` output |
| `net/net_conn.go` | events of `ListenModel.v`, `ClientModel.v` | the operating system's sockets; `RwcWrapper` (used by `RunWithConn` only) |
| `net/client/config.go`, `net/client/auto.go` | `ConfModel.v`, `AutoModel.v` | |
| `net/client/server.go` | `ClientModel.v` | text of the log |
| `net/client/connection/request_holder.go`, `connection.go` | `HolderModel.v` (ids, table, completion), `ClientModel.v` (loops), `PairModel.v` (a client connection, its writer and reader, and a server connection in one machine), `FleetModel.v` (the endpoint, the loops and the table of each connection and the queue of requests in one machine) | requests sent again after they completed (SetPending a second time); `RunWithConn` (for tests: it runs the loops without Init of the HeaderReader and HeaderWriter) |
| `net/server/server.go`, `config.go`, `connection.go` | `ServerModel.v` (one connection), `ListenModel.v` (accepting, stopping), `GraceModel.v` (both in one machine, any number of connections) | — |
| `request.go`, `response.go`, `stat.go` | `RequestModel.v`, `KindModel.v`; with timer heaps and Send, in one machine, `DueModel.v` | the pool of `RequestDataPool` users outside the repository |
| `service.go` | `RequestModel.v` (SF, Route), `BufferModel.v` (Send, Stop), `BalModel.v` (Run), `RunModel.v` (calls of Run and Send at once) | default log functions |
| `buffer.go` | `BufferModel.v` | |
| `balancer.go` | `BalModel.v`; trees of balancers in `NestModel.v` | two concurrent calls of Run; AddChild, inside a tree, to a balancer that starts or stops |
| `parallel_service.go` | `ParModel.v`, with the order of its nested selects in `SelModel.v`, generators in `GenModel.v` | |
| `context.go` | `ContextModel.v`, `GenModel.v`; with requests, children and the contexts of handlers, in one machine, `TreeModel.v` | |
| `wait_group.go` | `MultiModel.v`, `GenModel.v`; used in rounds, with its timer, `RoundModel.v`; repeated calls of Each, `EachModel.v`, by several goroutines at once, `CallersModel.v`; Results called by several goroutines, `ResultsModel.v` | calls of Results and Each at once |
| `generator.go` | `GenModel.v` | |
| `custom_timer.go`, `epoch.go` | `TimerModel.v`, `TimerLoopModel.v`, `EpochModel.v`, `HeapsModel.v` | wrap-around of heap indices |
| `marshal/writer.go`, `writer_any.go`, `reader.go`, `reader_any.go` | `PrimModel.v` | `writer_intel.go`, `reader_intel.go` are empty |
| `marshal/writer_reflect.go`, `reader_reflect.go`, `marshal.go` | `CodecModel.v`; registries in `RegModel.v`; named types (recursive, interfaces, with IWrite) in `NomModel.v` with `FillModel.v`, read in `NomRdModel.v`; pools of Writers in `PoolModel.v`, of Readers in `RpoolModel.v`; the text of tags, and exported and unexported fields, in `TagModel.v` | named byte types, what slices keep between length and capacity |
| `sbox/*.go` | `SboxModel.v`; the destinations of ReadMany in `DestModel.v`; registries in `RegModel.v`, the cache of Readers in `RpoolModel.v` | interfaces inside typed containers |
| `examples/`, tests | – | not part of the library |

## Plan per property

| Property | What is modelled | How it is proved |
|---|---|---|
| C01–C05, C10 | BufWriter with its 4096-byte buffer (contents included), HeaderWriter, SliceReader over an explicit store of backing arrays, HeaderReader; transport = list of chunks | writer refines concatenation of frames (invariant `sink ++ buffered = emitted`); reader refines "take n from the stream"; frame parser round-trip; composed. C04, C05 refuted with witnesses |
| C06 | same writer with a sink that may fail after k bytes | invariant over histories of calls |
| C07–C09 | same reader; returned slices are references into the store | refinement to stream; store-frame lemma: no call changes bytes below the filled mark |
| C11–C17 | Uint64var, fixed-width, bulk slices, Slice/String, varu64size | base-128 algebra; induction; refutations (float64 bulk, 128, negative sizes) |
| C18–C21, C24–C26 | reflective codec: type descriptors built as in FillStruct/FillSlice (Sz, Cnt …), writer and reader by recursion over types | separate spec encoder; mutual induction over types and values |
| C22, C23 | Writer with explicit arrays, capacity, w/b offsets | invariant over histories |
| C27–C34 | Request word, lock, chain; threads running the public methods step by step | inductive invariant over all interleavings |
| C35–C38 | heap array, free list, push/remove/putUnder/sort4 | tree representation relation; refinement to a multiset of (id, deadline) |
| C39–C43 | RequestHolder rows, getNext, remove, getAll | refinement to a finite map id -> request |
| C44–C47 | code mapping; connection loops as step machine | algebra; invariant; refutations by schedule |
| C71 | the same machine; the lock is held across the send into the full queue | quiescent states classified, termination measure; deadlock witness with 129 requests; proved for at most 128 unanswered |
| C50–C52, C75–C76 | MultiRequest: user goroutine, one goroutine per completion, any number of cancellers, one step per shared access; mutex, condition variable, response channel (MultiModel.v) | one invariant over all interleavings, transition classification, quiescent states, termination measure; refutations by schedules (double close, send on closed channel, nil dereference, context never released) |
| C53–C55, C77–C78 | Context: registry (two places and a map), mutex, condition variable, state; goroutines that register, remove, wait and cancel, one step per shared access or critical section (ContextModel.v) | invariants over all interleavings, the moment of each observation, refutations by schedules |
| C48–C49, C72–C74 | Buffer: rows on a heap, cell states, wake-up channel, push and loop as a step machine, one step per shared access (BufferModel.v) | one invariant over all interleavings (who owns which cell, no lost wake-up); order and memory invariants on top; termination measure; C49 by witness for every capacity |
| C56–C58, C79–C80 | ParallelService: loop, counting channel, one goroutine per handler, states and chain of a request (ParModel.v) | invariants over all interleavings (slots, points of handlers, origins of responses), analysis of the states without internal steps, termination measure, refutations |
| C59, C81–C85 | client endpoint: its loop, the channel of reports, and of every connection the dialling goroutine, writer, reader and control loop (ClientModel.v) | invariants over all interleavings (truth of what was reported, exact counters while the number of connections is not reduced, stages of a connection); states from which the loop never moves again; refutations |
| C60–C65, C86 | `SboxModel.v`: WriteTuple, WriteKeys/CountKeys, the requests' IWrite, ReadRawTuple, ReadMany, ReadFirst over the type universe of the codec | bytes equal an independent layout (SboxSpec.v); injectivity of the layout; induction over types and tuples |
| C70 | the same machine, count() | polite and timely peers: count = unanswered + taken id; refuted in full |
| C69 | timer loop, condition variable, runtime timer, clock (TimerLoopModel) | invariant: asleep ⇒ wake-up pending no later than the top; lost wake-up found, so refuted in full and proved for schedules where the timer does not fire between Reset and Wait |
| C66, C87, C88 | `ConfModel.v`: SetDefaults, what NewServer and connections use, deadlines around network calls | case analysis, induction over sequences of calls |
| C67–C68 | SF/Route, StatService (`RequestModel.v`) | reuse of request machine |
| C89–C91 | `ListenModel.v`: Server.Stop, controlLoop, listenLoop, the reports of any number of connections | invariant over all interleavings, ranking function; the refutations are concrete runs closed under every continuation; at most one connection is rejected, since the loop that accepts ends with it (`RejectProps.v`) |
| C92–C95 | `AutoModel.v`: Get and Stop by any number of goroutines, the mutex, the map, the exit channels of the servers | invariant over all interleavings; quiescent states, ranking function; refutations closed under every continuation; C95 by case analysis on `ConfModel.v` |
| C96–C99 | `BalModel.v`: Run, AddChild, Stop and Send of a balancer by any number of goroutines, its Loop, the loops of the children | invariant over all interleavings; quiescent states, ranking function; refutations closed under every continuation |
| C100–C103 | `GenModel.v`: RGenerator with its pools, contexts, MultiRequests and handlers of ParallelService, any number of goroutines | invariants over all interleavings (ownership of generators, freshness of slots, pending bytes, counters); C103 also uses C50 |
| C104–C106 | `EpochModel.v`: int64 arithmetic of Epoch, saturating Time.Sub; Timer.After with clock and duration on top of `TimerModel.v` | arithmetic; C106 from C35 and C38 with the histories mapped |
| C107–C108 | `CodecModel.v`; the class of types in `SafeSpec.v` | C107: induction on types, every read keeps or shortens the input and errors stay; C108: compositional locality of every decoder, then C18 |
| C109–C110 | `RegModel.v`: the registries of codecs (marshal and sbox, writers and readers): table, mutex, copy on write, nested construction, panics, any number of goroutines | invariant over all interleavings; quiescent states, ranking function |
| C111 | `PoolModel.v`: marshal.Write with writerPool, nested Writers of WithSize with the channel twriters, any number of goroutines, on the buffers of `PrimModel.v`; `PoolCodec.v`: the actions of a value, from `CodecModel.v` | invariant over all interleavings (ownership of Writers, free capacity is zero, results out of reach of the buffers); ranking function for wait-freedom |
| C112 | `RpoolModel.v`: marshal.Read and ReadTail with readerPool, sbox.ReadFirst and ReadMany with readerCache, any number of goroutines | invariant over all interleavings (ownership of Readers, Readers of the pool are blank, the rest of the program gives what the whole gives alone); ranking function for wait-freedom |
| C113 | `FillModel.v`: the values Fill computes for a codec, on top of `RegModel.v`; `NomModel.v`: named types (recursive, interfaces, types with IWrite), their codecs and Write, WriteTail | invariant over all histories: a codec's values are those computed from the type; congruence of the writer in the codecs of the types used; refutation by two histories |
| C114 | `HeapsModel.v`: Timer.After and Stop, nextHeap, getHeap, the growing slice of heaps, any number of goroutines; each heap is `TimerModel.v`, the fields h and i of the Timers are shared | operations on a heap do not look at the fields i of other timers; invariant over all interleavings: every heap is in a state of a history of its own; lift of C35-C38; refutations by schedules |
| C115 | `NomModel.v` (as C113); `NomLaySpec.v`: the layout as relations on values, types of constant size, what the writer can handle | mutual induction over the layout relations, with what every history leaves of the codecs of any types (`RecWeak.v`); stored sizes by induction over the types; refutations by values |
| C116 | `NomRdModel.v`: the codecs of the reader for named types (recursive, interfaces, with IRead), Read and ReadTail; `NomRdSpec.v`: variables, values equal but for skip, what the reader can handle | induction over the layout relations of C115: the reader undoes each, for variables that fit the value; a second induction shows that all variables fit all values of the types named readable; refutations by values |
| C117 | as C116 | corollary of C116 for two histories; refutation by two histories |
| C118 | a client connection (HolderModel.v) and a server connection (ServerModel.v) joined by two byte streams that the code of WireModel.v writes and reads (PairModel.v) | invariant over all interleavings that says which call wrote which bytes, which frame was read from them, and which request number each answer belongs to (PairWire.v, PairLink.v, PairProofs.v); progress of the reader by induction on the answers not yet read (PairLive.v); refutation by a run for RC4byte with the greeting |
| C119 | the machine of C118 (`PairModel.v`); the library's own steps in `TripSpec.v` | a measure that every step of the library lowers (bytes not yet read, work of the server connection, answers not yet read); at rest the invariant of C118 with an empty writer and an exhausted reader |
| C120 | requests, Send, SetTimeout, Expire and the timer heaps of TimerModel.v in one machine (`DueModel.v`); deadlines, deliveries, rest in `DueSpec.v` | invariants on who holds the lock and where a fired or armed timer is (`DueProofs.v`, `DueStory.v`, `DueRest.v`); a measure for coming to rest; refutations by runs |
| C121 | the machine of C120 | an invariant: a request delivered after its timer was armed is still being completed, or its timer is off; refutations by runs |
| C122 | the machine of C120 | an invariant: each timer fired was armed before by a SetTimeout, each answer comes from a caller or a fired timer |
| C123 | contexts, the requests made with them, children, handlers' contexts, goroutines with call stacks (`TreeModel.v`); deliveries, rest, requests not being made while their context is cancelled, the tree in `TreeSpec.v` | invariants on locks and states (`TreeProofs.v`), on what is registered from birth to completion (`TreeBirth.v`), on cancelAll (`TreeCancel.v`); refutations by runs |
| C124 | the machine of C123 | induction over the tree, with the invariants of C123 at each context; refutation: an invariant of the spinning stack |
| C125 | the machine of C123 | an invariant on histories (`TreeHistory.v`): a request made with a context cancelled before gets no bookmark, and nobody can answer it before NewRequest returns |
| C126 | the machine of C50 with further rounds of requests after Results (`RoundModel.v`); the rounds in `RoundSpec.v` | the invariants of C50 carried over the rounds; a permutation between what was given out and what was made; a measure for the end of all calls |
| C127 | the machine of C126 | refutations by a run, and by an invariant of the sleeping Results; the histories of C126 for the rest |
| C128 | the machine of C126 with the registration | an invariant: given up only when all are counted and no more are made; refutation by a run |
| C129 | the machine of C126 with the timer | an invariant: armed, or expired, or all counted and no more are made; refutation: nothing moves any more |
| C130 | the machine of C129 | an invariant of the waiting Results; refutation by runs |
| C131 | readInterface, readArray, readSlice and oneTuple for every kind of destination (`DestModel.v`) | induction on the elements; the single tuples by C61; refuted for a single variable by computation |
| C132 | readFixedArray and readInterfaceArray (`DestModel.v`) | refuted for every response with a tuple: the panic of the first one |
| C133 | the readers of C61; `suits` and `filled` in `DestSpec.v` say which fields a struct takes | induction on the fields of the struct; refuted for arrays by induction on the elements |
| C134 | the readers of C61 on arbitrary bytes; `tuple_safe` in `DestSpec.v` | induction on the type with the results of C107; refuted by a length that comes out negative; again for strings and []byte on bytes in which no length can (`TameSpec.v`, `TameProofs.v`) |
| C135 | the conversions between float32 and float64 on bit patterns (`FloatModel.v`), values in `FloatSpec.v` | arithmetic on the parts of the patterns; induction on the type with C18; the rounding of float64 to float32 is shown to be to the nearest, ties to even (`FloatRound.v`) |
| C136 | MultiResponse as a sort.Interface (`SortModel.v`), on the machine of C126 | swaps are permutations; sorted lists with the same elements are equal; C126 |
| C137 | bodies of calls and answers (`CallModel.v`) over the pair of connections of C118 | C118 and C119 composed with C18 |
| C138 | Body.Reader, Read2, ReadTail2 (`CallModel.v`) | C18 for Reader; for every body, Read2 and ReadTail2 leave nothing to read |
| C139 | WriteWithSize, WriteValueWithSize, ReadWithSize, ReadValueWithSize with every kind of prefix (`SizedModel.v`) | as a struct with one tagged field (C18); by cases for the fast paths |
| C140 | Reader.Done, Reader.Error (`SizedModel.v`) | by cases; with C18 for messages |
| C141 | State with its cause in the machine of contexts and requests (`TreeModel.v`), Alive, Timeout (`CauseSpec.v`) | invariant: every frame that is going to end a context has a reason in the trace |
| C142 | the machine of contexts and requests (`TreeModel.v`), one goroutine running alone (`ReturnSpec.v`) | invariants: registered at most once, only unfinished requests of that context, a context is never above itself (ranks, `TreeTidy.v`); then induction on the rank, each call of Cancel within Cancel goes strictly down (`TreeReturn.v`) |
| C143 | the MultiRequest with its timer (`RoundModel.v`, `RoundSpec.v`) | induction on the schedule: timerSet only goes up, once it is set the timer is never armed again; the flag of a request never changes (`RoundTimer.v`) |
| C144 | TreeModel.v; FlowSpec.v (children made, done; schedules without new calls) | TreeOrder.v: creation order ranks contexts and requests, every stack of calls goes up in rank; TreeLive.v: by induction from the highest rank down, each call can return, the holder of a lock it waits for first |
| C145 | `GraceModel.v`: ListenModel.v and one ServerModel.v per connection, stepping together where they share the control loop of a connection | every run projects onto a run of ListenModel.v and of each ServerModel.v (`GraceProofs.v`); a writer that ended without an error leaves nothing behind (`GraceEnd.v`); the step that closes Running finds every writer ended (`GraceLast.v`); ranking function and analysis of quiet states (`GraceLive.v`) |
| C146 | `FleetModel.v`: ClientModel.v and one HolderModel.v per connection, stepping together where they share a loop, with the queue of requests | every run projects onto a run of ClientModel.v (`FleetClient.v`) and of HolderModel.v for each connection (`FleetHolder.v`); an invariant locates every request: queue, hand of a write loop, table of one connection, or complete (`FleetProofs.v`, `FleetInv.v`); a connection that cannot report stays so (`ClientProofs.jammed_step`); from every reachable state a schedule of one connection's own steps ends it and completes what was written on it (`FleetNotes.v`, `FleetLossProps.v`) |
| C147 | `SystemSpec.v`: runs of FleetModel.v together with runs of PairModel.v, one per connection, that agree on the traffic of the connection (parallel composition by traces) | politeness depends on the traffic only; C118 gives it, and the answers, for each connection; C146 gives that a request is on one connection only (`SystemProps.v`); at rest every written request is with its handler or complete, from C119 (`SystemRestProps.v`) |
| C148 | `KindModel.v`: Valid and Restartable of response.go, over the requests of RequestModel.v and the streams of WireModel.v | arithmetic of the mask; the origin of a response's code is C29; a common code for two causes is shown by two runs; without codes on the wire from C03 (`KindProps.v`) |
| C149 | `RunModel.v`: any number of calls of Run and Send on one SimplePoint, one step per shared field, and the loops they start | invariant for all schedules (what b.ch says about the other fields); for calls of Run one by one, an invariant by phases of the only call under way (`RunProofs.v`, `RunProps.v`); overlapping calls refute the rest by a schedule |
| C150 | `SelModel.v`: ParModel.v with the place of the loop in its three nested selects | refinement of ParModel.v step by step; after Stop the handlers that may still start are those in a fixed list of n + 1; the distance of the loop from its end decreases (`SelProofs.v`, `SelProps.v`) |
| C151 | `TagModel.v`: the text of a tag, its words, and the loop over the fields, written out for the writer and for the reader | induction on the text, on the words and on the fields (`TagProps.v`); unknown words and size(no),skip refute the rest |
| C152 | `EachModel.v`: Each called any number of times by one goroutine while the requests are answered, one step per shared access, every channel made | invariant for all schedules (where every answer is, how many were counted, who closes); a second one for calls that do not overlap an answer (`EachProofs.v`, `EachProps.v`); refutation by an invariant of given-up channels and by schedules |
| C153 | `NestModel.v`: a tree of balancers and leaves, one step per child started, exit message taken or loop ended | every subtree is fresh, up or told to stop (three inductive predicates, kept by every step); rest by induction on the tree; a measure bounds the steps (`NestProps.v`) |
| C154 | `CallersModel.v`: any number of goroutines that call Each, on top of `EachModel.v`; the evaluation of w.ch after the mutex is a step of its own | every step under the mutex is one of `EachModel.v`, so its invariants hold; a second invariant says which channel each call made; a schedule refutes the rest (`CallersProps.v`) |
| C155 | `ResultsModel.v`: any number of goroutines that call Results while the requests are answered; the condition variable with the choice of the goroutine it wakes | one invariant for all schedules; a state with all requests answered keeps its sleepers (`ResultsProps.v`); two callers refute the rest |
| C156 | `WireModel.v` (`hr_ping`), any stream of bytes in any fragmentation | case analysis on the length of the stream, on top of what Read returns (`PingProps.v`) |
