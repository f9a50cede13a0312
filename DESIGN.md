# Formal model of chenquan/go-pkg in Rocq

## 1. Layout

Sources are in `rocq/theories/` (logical name `Verif`). Each package has

* `<Pkg>Model.v`  – definitions only, each citing the file and lines of /repo it models;
* `<Pkg>Spec.v`   – (where the property needs one) a small specification that does not mention the model;
* `<Pkg>Proofs.v` – lemmas;
* `<Pkg>Props.v`  – the property theorems (`Cnn_*`), non-vacuity examples and `Print Assumptions`.

`_refuted` theorems give a concrete execution of the model on which the stronger
statement a user might expect is false.  `_partial` marks a theorem that covers
only part of its property; the missing part is written next to it.

## 2. Conventions of the model

* Go `int`/`int64` are `Z`.  Where a Go computation can leave the int64 range for
  inputs the property ranges over, the model wraps explicitly (`wrap64`); uint16/uint32
  arithmetic is always reduced modulo 2^16 / 2^32.
* A Go string is a list of bytes (`list Z`); decoding/encoding follow Go's
  `unicode/utf8` (ill-formed byte = U+FFFD of width 1).
* `interface{}` values are an abstract type (section variable, generalised in the
  theorem).  User callbacks are arbitrary functions or arbitrary behaviours (a step relation).
* Unicode tables (`IsLetter`, `IsDigit`, `ToLower`, `ToUpper`) are arbitrary functions;
  `IsSpace` is concrete.
* Goroutines are state machines; a program is a transition relation whose steps are the
  individual atomic memory operations / lock operations / channel operations of the code;
  theorems quantify over every reachable state, i.e. every schedule.
* Go's memory model is taken as sequentially consistent for sync/atomic, mutexes and
  channels.  Data races (plain concurrent writes) are modelled at word granularity only in
  the one place the code has one (`Map.Clear`).
* Panics are an explicit outcome.

## 3. Plan per property

| id | what is modelled | how it is proved |
|----|------------------|------------------|
| C01 | utf8.RuneCountInString as the Go decoder on bytes | induction on the byte list; decode/append lemma |
| C02,C03,C04 | RepeatChar, pad functions, RemoveChar on byte strings | decode-after-encode and decode/append lemmas |
| C05 | sub with its byte builder loop, int64 indices | loop invariant; spec = clamped slice of the rune list |
| C06 | Rotate on top of Left/Right, Go `%` | case analysis, refutation by computation |
| C07 | Reverse with DecodeLastRune and destination index | backward-decoding lemma; iff valid and no U+FFFD |
| C08 | Fisher–Yates loop over a list of draws | permutation by swaps; bijection draws/permutations by induction |
| C09 | strings.ReplaceAll scan with empty replacement | relational spec of left-most non-overlapping deletion |
| C10 | the predicate loops | induction |
| C11 | the regexp `^\d+.?\d*$` with a regex matcher over runes | denotational equivalence of the matcher, then characterisation |
| C12,C13 | IndexOfDifference loops with labelled break, xmath.MinInt via floats | loop invariants; spec = longest agreeing prefix |
| C14,C15,C16 | RegionMatches loop etc., strings.ToLower/ToUpper per rune | induction; case-fold equivalence |
| C17 | DeleteWhitespace with the builder.Len()==strLen shortcut | exact characterisation + witness |
| C18 | Abbreviate incl. recursion and int64 wrap | case analysis + witness |
| C19 | small helpers, strings.Index as first match | induction |
| C20,C21 | Joiner as state machine over its builder | invariant over operation histories |
| C22 | BatchError | induction over Add sequences |
| C23–C25 | float64 conversion (round to nearest even), math.Max/Min on IEEE data (stdlib SpecFloat) | rounding lemmas on Z; case analysis |
| C26–C28 | the codec over an arbitrary reader (list of Read outcomes) and pooled buffers with stale content | induction on the value sequence / the chunks |
| C29,C30 | Malloc/Free over a nondeterministic sync.Pool, memory cells with ownership | invariant over histories |
| C31,C32 | bufio.Reader/Writer state and the pools; the argument of a Get may itself be a bufio object, which Get may return unchanged | invariant over histories |
| C33,C34 | ring array with index modulo; RWMutex critical sections as a transition system | invariant |
| C35 | retry loop over an arbitrary outcome sequence | induction |
| C36–C39 | Do as transition system: caller, goroutine, ctx, two channels | inductive invariant; progress; refutation for Goexit |
| C40,C41 | Worker as transition system over unboundedly many Run calls | inductive invariant; two-context witness |
| C42,C43 | xonce: CAS then send+close; atomic.Value two-word protocol | inductive invariant |
| C44,C45 | barriers over a channel | transition system invariants, witnesses |
| C46,C47 | Spinlock transition system | inductive invariant |
| C48,C49 | Map's read/dirty/misses/entry states, sequential semantics | simulation with an abstract map |
| C50–C53 | the same code in small steps (one atomic access per step), any number of threads | forward simulation into an abstract machine with one-instant operations; hindsight for read-only outcomes, removed by a second refinement |
| C54 | the same model: a callback that has not answered, or has panicked, with the mutex | invariant of runs in which the holder stands still; witness run |
| C55 | the two words of m.read with Clear's plain writes; Clear as one step of the concurrent model | witness runs; invariant for Loads that no Clear overlaps; refinement for the atomic Clear: steps made with entries of before a Clear are moved to before it, then each part is simulated as for C50 |
| C56,C57 | uint32 bit tricks, fnv32, shards | bit lemmas; simulation |
| C58–C60 | ResourceManager with singleflight as transition system | inductive invariant; witnesses |
| C61–C70 | each operator's goroutine as a transducer; channels with capacities; pipelines | trace invariants; determinism of pipelines (Kahn) ; progress and termination measure |
| C71–C74 | Concat/Walk/ParallelFinish/Copy with unboundedly many goroutines | inductive invariants; witness for Copy |
| C77 | the remaining string helpers | induction |
| C78 | SharedConcModel: shards that are concurrent Maps (C50), a goroutine in at most one of them; Range as the loop over shards; spec = the single map of MapConcSpec | each shard is simulated by its own abstract map (C50); the shards' abstract maps are the restrictions of one map; MStore = its Stores; Clear in C79 |
| C79 | SharedClrModel: C78's model with Clear as the loop over shards, each shard's Clear one step (as in the second half of C55) | a run is projected to one shard, in which the Clear of the whole map is one long call of the shard's Clear; C55's refinement; operations on other keys are erased from the specification's run; witness run and impossibility proof for two shards |
| C80 | PipeModel: a pipeline is a list of groups of goroutines (one goroutine as in NetModel, or Walk's starter and workers) joined by Go channels of any capacity; small spec `may` (results reachable by applying the operators one after the other) | each group alone is shown to satisfy an interface (closes once, reads everything, moves or waits for input, no endless run between two inputs; Walk via projection to FanModel's runs); then invariant, progress from the last group backwards, termination by a lexicographic order along the pipeline; the result read off the final state and carried back to every earlier state |
| C81 | XPanicModel: Distinct and Peek with callbacks that may panic, with and without the deferred close, behind a source in NetModel's chain | big-step run of one goroutine that may stop before its input ends; invariant, progress and step bound for the two-goroutine chain |
| C82 | RMModel (as for C58–C60) | no-deadlock from the invariant (lock holder and flight leader exist); termination measure over the calls in progress with an explicit bound; invariants for calls made from inside create and Close |
| C83 | MapConcModel with Clear as one step (C55's second half) | no-deadlock from an invariant (the lock has a holder who is not waiting); termination measure: each goroutine's distance to its return, with an extra for entries that changed under its compare-and-swap, summed over the calls in progress, gives a bound that is polynomial in the number of calls |
| C84 | SharedClrModel (C79) | every shard of a run is a run of a Map, so C83's invariant and measure hold in each; the sum over the shards plus what Range and Clear have still to visit decreases; a step of a shard lifts to a step of the SharedMap |
| C85 | XBinConcModel: the calls of xbinary byte by byte on the memory and pools of XBytesModel, with any number of goroutines and other users of the pools | invariant: the buffers of the calls in progress are held and distinct, and the bytes a call has stored or been delivered are still in its buffer (C30); one relation per call between its events and its answer |
| C86 | HackModel: Reverse byte by byte in a memory of blocks, strings and slices as pointers with lengths, any number of goroutines and other code that allocates, stores and makes strings | invariant: the memory of strings is never stored into, the block of each call is its own; each call relates to the run of XStringModel's Reverse on the text its argument had at the call; a rank bounds the steps |
| C87 | PoolModel: pool.go with getOrCreatePool explicit: singleflight around ComputeIfAbsent on MapConcModel, pools as objects, any number of goroutines | invariant: whatever a flight or the map returned for a size is a returned value of ComputeIfAbsent of that key; by linearizability (C50) these are all equal; simulation into XBytesModel carries C29 and C30 over; no deadlock from C83's lemmas; termination from C83's bound on the map's own steps plus a count of the steps around it |
| C88 | TreeModel: expressions as trees; a node is the group of goroutines of one operator (PipeModel's, or Concat's: first goroutine, WaitGroup, one copying goroutine per stream) with its channel, the children are the streams it reads; a parent's receive is a step of parent and child together | compositional: a node whose children each deliver a result in P_i, and whose operator alone behaves on all such inputs, delivers a result (safety, progress, well-founded termination on children, operator, buffer); induction over the tree |
| C89 | XQuitModel: Foreach, ForeachOrdered, AnyMach, AllMach, Sort, Group and Group.Map with callbacks that may panic in the caller's goroutine (the map of Group.Map is stored before it is filled), and the argument checks of Split, SplitSteam, Tail, Skip and Limit, behind a source in NetModel's chain | big-step runs that leave a rest of the input unread; the invariant, progress and step bound of C81 for the two-goroutine chain |
| C90 | ChunkModel: the goroutine of SplitSteam statement by statement, its inner channels as channels that whoever holds them may read | invariant: what was read of a chunk and what is left in its channel make up the chunk; chunks are unique; progress of readers and of the goroutine; decreasing measure |
| C91 | ShareModel: one channel with a source and any number of reading goroutines, which may start draining goroutines; the terminal operations of XStreamModel, and FindFirst, AnyMach, AllMach with their drain as a goroutine of its own, one after another | generic invariant for any readers (received ++ buffered ++ unsent = input); each reader's trace is a run of its program, operation by operation equal to the specification on the items it received; potential for termination; explicit schedules for every selection |
| C92 | TaskFailModel: DoWithRetry with an fn that may panic; Do and Worker.Run over the steps of XTaskModel, with deferFuncs that panic or leave (runtime.Goexit) | induction on the loop against a specification by the first call that decides; projection to runs of XTaskModel, so that C36, C38, C40, C41 apply, plus an invariant relating the fate of deferFunc to the trace |
| C93 | MStoreModel: SharedClrModel with MStore; the iteration over the argument takes any entry not yet stored | invariant: entries stored ++ entries left is a permutation of the argument, with the goroutine's events; converse by induction on the run; what a Load sees by C79 and an invariant of the specification; potential on top of C84 for termination; explicit runs in which MStore is seen half done |
| C94 | XOnceModel, unchanged | potential per goroutine that depends on the type word, summed over the goroutines inside; the first writer exists by the invariant of C43; explicit run in which one Write waits |
| C95 | MapKeyModel: map.go over Go's maps with interface{} keys (equality symmetric and transitive only, some keys not hashable), in a state and panic monad with the mutex | invariant relating the two inner maps up to equal keys, simulation of a built-in map; instance with float64 and slice keys |
| C96 | XRingModel's concurrent part | per-goroutine fuel summed over the goroutines that called; lock invariant that does not depend on the ring's contents |
| C97 | XTaskModel's worker | fuel per task summed over the tasks; a state without enabled steps is analysed by cases |
| C98 | Distinct, Group and Group.Map over Go maps with any == and hashability (StreamKeyModel) | invariant: the map's values are a permutation of the groups of the prefix read, entries have pairwise unequal keys; chain lemmas of C81/C89 for the schedules |
| C99 | Map as in C50-C55 with Go maps inside, any == and hashability (MapAnyModel) | forward simulation by the Map of C50/C55 over names: entries and calls in progress carry names; a pair still to be copied by dirtyLocked is not in dirty; the bound of C83 and a count of panics for the end of calls; a name used by one call only for Range and NaN |
| C100 | every function of map.go as a program of single accesses, with Go maps as objects (MapFineModel); happens-before and data races (RaceSpec) | a set of rules for what a goroutine has to know before each instruction, checked for the code by coinduction; an invariant that ties that knowledge to happens-before in the trace; a run of two goroutines for Clear |
| C101 | the runs of MapFineModel, Clear included, and what is seen of them (MapFineSpec) | forward simulation by MapAnyModel (MapFineRel, MapFineSim): every access is matched by one step or none; what a goroutine will do with a map object it holds is left open until it reads it, and m.dirty, m.read and m.misses between an Unlock and a Lock are those of MapAnyModel; then C99 |
| C102 | as C101, with calls in progress (MapLiveSpec) | between two accesses that are steps of MapAnyModel there are at most 15 others (a coinductive predicate checked for the code), so a run is at most 16 times as long as the one of C101, which C99 bounds; progress from the same simulation |
| C103 | what each step of XRingModel and RMModel does to memory and to locks (RingSyncModel, RMSyncModel); happens-before and data races for locks, channels, wait groups and atomics (SyncSpec) | invariant "the last write happens before whoever holds the lock, and every read before whoever holds it for writing" (SyncProofs, `guarded`); for a value, the index of the event it comes from and who has seen it |
| C104 | SpinModel with accesses of the caller's memory between its steps (SpinSyncModel) | every access so far happens before the next attempt that succeeds: through the store of Unlock and the compare-and-swap that observes it |
| C105 | what each step of XOnceModel does to memory and to the channel (OnceSyncModel) | invariant: who has seen the call of the Write that won, through the send, the close, or the atomic words; for each kind of event, that it occurs once |
| C106 | what each step of Do does to its two channels and to ctx (TaskSyncModel) | the same; that nothing orders do and Do after the end of ctx, by a concrete run and a set of its events closed under happens-before |
| C107 | what each step of FanModel does to the wait group, the channel of slots and the result channel (FanSyncModel); channels with any number of sends and receives (SyncSpec: the k-th send before the k-th receive, the k-th receive before the (k+n)-th send) | invariants: every worker that is done has added to the wait group; with one worker, the return of each call is seen by whoever fills the slot next; the items in the result channel are its sends, in order, that are not received yet |
| C108 | what each step of Worker does to its slots, with the steps of TaskSyncModel for the Do of each task (WorkerSyncModel) | the events of one task are a run of TaskSyncModel, and happens-before there is happens-before in the whole (SyncMore), so C106 applies to each task; for one slot, invariant: the end of every task that gave its slot back is before the last operation on the channel of slots |
| C109 | what each step of MapRedModel does to source, wait group, slots, output and the channels of each Do (MapRedSyncModel, which states the steps again with their events; C109_runs says they are the same) | invariants: the end of each call, or of ctx, is seen by the goroutine that has run its Do, and by whoever closes the output; the values in the output channel are its sends that are not received yet; for one slot, as C108 |
| C110 | the traces of C103 and C105 to C109; which events are possible after which trace (FeasSpec: channels, wait groups, locks, go statements) | invariants that tie the state of each model to what is in its trace: how often each channel was sent on, received from and closed, who was started, who holds the lock (FeasProofs, FeasLock, one file ...Feas for each) |
| C111 | the steps of XBytesModel with their goroutines, accesses to bytes and to the slice variables in the pools, handing over between goroutines (BytesSyncModel); sync.Pool's Put and the Get of the same element as a send and its receive | an invariant: whoever holds a slice, or takes it from a pool, has seen all accesses to its bytes; disjointness from C30; witness |
| C112 | the steps of XIOModel with their goroutines, one place in memory for each bufio object, the pools and handing over as sends and receives (XIOSyncModel) | an invariant over single accesses: whoever an object is with, or will take it, has seen all accesses to it; the runs on raw streams are all of XIOModel's; witness |
| C113 | the steps of NetModel as sends, receives and closes of the channels between goroutines (NetSyncModel), for the operators of XStreamModel | an invariant ties each channel's state to the counts of its sends and receives: the traces are possible, so the k-th send is before the k-th receive; for chains without Limit an invariant says that a closed stream means all goroutines up to it have ended, and its close is after all they did; witnesses for Peek and Limit |
| C114 | the steps of CopyModel as sends, receives and closes (CopySyncModel) | the invariant of C113 for each channel, and one that ties the number of items taken from the source to the number sent to each copy; witness |
| C115 | shards as in C100, access by access, each with its mutex, and the SharedMap's own fields, which are only read (SharedRaceModel) | the trace seen shard by shard is one of C100; what is ordered in a shard's trace is ordered in the whole trace; refutation with Clear |
| C116 | the traces of C101 and C115, Clear included; who holds the mutex is read off the trace (MapLockSpec) | the invariant of C101 on what each goroutine knows says who has the lock; each step of it is checked against the trace; the code does not end in the mutex without a panic (a coinductive predicate checked for the code, MapLockDead); for SharedMap shard by shard |
| C75,C76 | mapreduce.Map with generator, worker slots, Do goroutines (started by Do and run when they get to), collector | inductive invariants; witnesses |

## 4. Trusted base

* The Coq 8.16.1 kernel; the gate also runs `coqchk`.
* Axioms: none.  `Assumptions.v` mentions every theorem and example named `Cnn_*`, and
  `Print Assumptions` there prints "Closed under the global context", so none of them uses an
  axiom.  The `*Props.v` files also run it on single theorems.  `coqchk` lists seven constants `Coq.ssr.ssrunder.Under_rel.*` of Coq's own library,
  which are loaded with std++ but used by no theorem here.
* Libraries used: Coq's standard library and std++ (`gmap`) for the Map, SharedMap and
  ResourceManager files.  No Iris, no plugin, no functor.
* The reading of Go given in sections 2 and 5, i.e. that the definitions in `*Model.v` say what
  the cited lines do.  The standard library functions the code calls (utf8, strings, bufio,
  sync, sync/atomic, sort, context) are modelled from their documentation and source, because
  neither they nor the repository can be run here.

## 5. What is modelled, and how faithfully

Every definition carries the lines it models.  Simplifications, package by package:

| code | model | simplifications |
|------|-------|-----------------|
| xmath | XMathModel | all eight functions, float64/float32 as SpecFloat data; conversion of an out-of-range float to int is an arbitrary function `ovf` (implementation-defined in Go) |
| xstring/xstring.go | Utf8Model, XStringModel | every function; Unicode tables are parameters; rand.Intn is a list of draws; `Index`, `IndexAny`, `Trim*` call strings.*, whose loops are modelled without the ASCII fast paths |
| xstring/stringjoiner.go, xerror | JoinerModel | every function; strings.Builder as content + capacity, growth policy arbitrary |
| xbinary | XBinaryModel | every function over an arbitrary io.Reader / io.Writer (list of outcomes), pooled buffers with arbitrary stale content |
| xbinary on xbytes | XBinConcModel | the slice passed to WriteBytes does not change during the call; the Writer reads the slice it is given byte by byte and keeps nothing (io.Writer's contract); the Reader may store anywhere in its slice until it returns; a byte is a cell modulo 256 |
| xbytes | XBytesModel | Malloc/MallocSize/Free; sync.Pool may return any element put, call New, lose elements; one pool per capacity, which PoolModel proves of getOrCreatePool (C87) with singleflight by contract, publishing and forgetting in two steps as in RMModel |
| xio | XIOModel, XIOSyncModel | bufio by its documented behaviour (buffer, sticky error, Reset); how a call splits into fills and flushes is left open; what a bufio object does below another one is left open; for data races an object is one place in memory |
| xring, xstream/ring.go | XRingModel | every function; the concurrent version takes the RWMutex as the reader/writer contract |
| xtask | XTaskModel | Do, DoWithTimeout, DoWithoutDefer, DoWithRetry; `deferFunc` and the `fn` of DoWithRetry return normally in XTaskModel, and may panic or leave in TaskFailModel (C92); runtime.Goexit is a possible behaviour of `do` (C39) |
| xworker | XTaskModel, TaskFailModel | NewWorker and Run for any number of calls; failing deferFuncs in TaskFailModel |
| xonce | XOnceModel | Chan and Value; atomic.Value at the granularity of its two words |
| xbarrier | XBarrierModel | both barriers; context Done may close at any moment |
| xsync/spinlock.go | SpinModel | backoff loop; no bound on waiting is claimed |
| xsync/map.go | MapSeqModel (one goroutine), MapKeyModel (one goroutine, any key), MapConcModel (any number), MapClear (words of m.read with Clear), MapClr* (Clear as one step), MapAnyModel (any number of goroutines and any key), MapFineModel (access by access) | sequentially consistent atomics, one model step per shared access; work on mutex-protected fields is one step, and a map read from m.read is a value, except in MapFineModel, whose runs C101 reduces to those of MapAnyModel; a callback that calls back into the map is another goroutine; a goroutine that panics with the mutex keeps it for ever |
| xsync/shared_map.go | SharedModel (one goroutine), SharedConc*, SharedClr*, MStore* (any number), SharedRaceModel (access by access) | as for Map; MStore's argument does not change during the call; shard index and fnv32 bit by bit |
| xsync/resourcemanager.go | RMModel | RWMutex and singleflight by contract: a flight first publishes its result and then forgets the key, so a caller can join a flight that is over; create may return, fail, panic or leave (runtime.Goexit); a nil resource makes Close panic with the lock held |
| xstream/xstream.go, collection.go | NetModel + XStreamModel (operators run by one goroutine, chains of them), FanModel (Walk, Map, Filter, FlatMap, ParallelFinish, Concat), PipeModel (pipelines mixing both kinds), TreeModel (these and Concat in expressions that use each stream once; Copy, one stream read twice, and SplitSteam's inner streams are not members of such expressions), ChunkModel (SplitSteam's inner streams), ShareModel (several readers of one stream, one terminal operation after another), CopyModel | callbacks are functions that return, except in Walk where a panic is an earlier return, in XPanicModel (Distinct, Peek) and in XQuitModel (operations that call back in the caller); the ants pool recovers panics of the goroutines; keys are numbers (decidable equality) except in StreamKeyModel (Distinct, Group, GroupBy with keys of any kind); sort.Slice by contract; Go's map order is an arbitrary permutation; Sort/Reverse/Group, which read in the caller, are a stage of their own; the background `drain` of FindFirst/AnyMach/AllMach is ordered after the return (a goroutine of its own in ShareModel); int counters wrap at 2^63 and theorems assume fewer items; the goroutine pool never refuses (xstream.go:32) |
| xmapreduce | MapRedModel | Map, MapStream, on the models of Worker, Do and WriteBarrier; the generator sends a finite list; the map function is an arbitrary finite program of writes that may panic |
| internal/hack | HackModel | strings and slices as block, offset, length and capacity; the ownership of blocks is ghost state, used only to say what other code may do: it stores only into []byte it allocated and has not made a string of; in XStringModel the conversions are the identity on contents |

## 6. Not modelled

* Timing (`DoWithTimeout` is `Do` with a context that becomes done at an arbitrary moment), memory
  exhaustion, and the scheduler's fairness except where a theorem states it as a hypothesis.
* Weak-memory effects.  The concurrent models are sequentially consistent; the Go memory model
  promises that for programs without data races, and that there are none is proved for Map without
  Clear (C100), SharedMap without Clear (C115), Ring and ResourceManager (C103), the spin lock (C104), the memory of xbytes (C111) and the objects of xio (C112); Chan, Value and Do share
  memory through channels and sync/atomic only (C105, C106); for Walk and Concat, that what the
  functions did is ordered before what the caller then does is C107, C108 for Worker, C109 for mapreduce.Map C113 for the stream operators of one goroutine and C114 for Copy.  Clear has a data race.
  The orders are derived from traces; C110 (and C113_feasible) says that these traces are ones Go's channels, locks, wait
  groups and go statements allow.  A trace has the operations that succeed: an operation that would panic is
  a step with the label of a panic, or a state from which no step is possible.  That there are none is
  C42_no_panic (Chan), C71_once and C72_safe (Concat, Walk) and C110_map_fault (mapreduce.Map); in
  mapreduce.Map a send on the closed output does happen (C76_send_on_closed_witness), only after ctx has
  ended (C110_map_closed).  An earlier wording of C110 denied that.  Likewise an earlier model of
  Do started its goroutine and called the map function in one step, which hid that a call can begin after the
  cancellation (C76_late_call_witness).  Values and atomic words in the traces are not part of that: what
  a receive or a load yields is in the step relations.
  In C103 to C109 the constructor's writes are before everything else: how the object itself gets
  to the other goroutines is the caller's business.  singleflight's mutex is left out there, which
  only takes edges away.  The same goes for C107, where the pool (xstream.go:32) is taken to start a
  goroutine of its own for each task, and what its queue and its reuse of goroutines order is left out.
* The third-party ants pool: assumed to run every submitted task in its own goroutine.

## 7. Testing the theorems

`seeded/LOG.jsonl` lists wrong programs: one edit of a `*Model.v` definition each, the claim it
breaks, and where the build then fails.  The edits are made in a scratch copy.  Edits that leave
the English claim true (for instance a slot released by nobody after the last item) are not
logged; edits that make the model ill-typed are not counted.

`CallersProps.v` shows for the concurrent models that callers are unrestricted: an idle goroutine
can make every call, callbacks can give every answer, and maps can be iterated in every order, so a
theorem about all runs is not true for lack of runs.
