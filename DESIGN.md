# Formal model of crunchypi/trypo in Rocq (Coq 8.16.1)

## 1. Modelling approach

* **Numbers.** All vector code is written once over a record `Num` (add, sub, mul, div,
  sqrt, comparisons, int conversion, MaxFloat64).  Three instances are used:
  `f64` (IEEE binary64, from the standard library's executable `SpecFloat`, no axioms),
  `Qc` (exact rationals, no axioms) and `R` (stdlib reals, stdlib axioms).  Structural theorems
  hold for every `Num`, so in particular for `f64`; ordering theorems need `NumOrd` (`<` is a
  strict weak order away from NaN), which `f64` satisfies; mean theorems are stated for exact
  arithmetic (laws in `ExactNum`).
* **Effects.** `M A := nat -> outcome (A * nat)`.  The `nat` is a tick counter which
  indexes an environment `Env`: the k-th clock reading (any function: the clock
  may even go backwards), the k-th map-iteration order (any permutation), the fate of the k-th
  RPC (delivered, request lost, response lost), the k-th random number, the k-th goroutine
  arrival order, and the search functions that are plugged into managers.  Theorems quantify
  over all environments that satisfy `EnvOk` (what the plugged-in functions must satisfy).
* **Panics and loops.** `outcome = Ok | Panic | OutOfFuel`.  Index errors, negative `make`
  and integer division by zero are `Panic`; loops without a structural measure run on
  fuel and yield `OutOfFuel`.  Specifications are total-correctness triples
  (`wp`), so they prove absence of both.
* **Pointers.** `[]*Centroid` is a list of values; aliasing matters only in
  DistributeDataPoints, where sources and receivers are indices into one pool.
* **Memory** (Memory.v, MemCentroid.v, MemManager.v).  The centroids and the manager once more, as
  programs over slices with backing arrays and over pointers (`prog`, run by `run_heap`).  C83
  relates them to the models with lists; everything else is proved of the latter.
* **Processes** (Proc.v).  A goroutine is `Ret r`, `Act l f k` (a critical section under the
  mutex l, or a step without one) or `Fork q k` (a `go` statement or a request whose answer is
  lost while its handler goes on).  `exec` runs one alone, `interleave` a pool under any
  schedule.
* **Servers** (Server.v).  A world is a list of nodes by address; a node is a heap of slots
  (namespace, manager), a table from namespace to slot, and the split threshold of its factory.
  Slots that the table has lost (two adds that race to create a namespace) stay in the heap.
  All client and server methods are processes over the world.  The world has a ghost
  list `w_dropped`: datapoints that a handler has been given and has not stored.
* **HTTP interface and event loop** (Core.v, EventLoop.v, Service.v): processes, too.
  A `job` (CoreSpec.v) is a request to a node, an HTTP put, an HTTP query or an event loop.
* **Parallel fetch** (Fetch.v): goroutines, WaitGroup and channel as a transition system, for
  any buffer; the result is an order of arrival, which is what the sequential model takes from
  the environment.
* **Mutexes** (Locks.v): each critical section is unfolded into lock, read, compute, write
  back, unlock, each one step; a simulation (LocksProofs2.v) shows that every such run is one
  of `interleave`.

Ghost state, never read by the code: `w_dropped`; the datapoints found by an HTTP query
(`query_http` returns them beside the response); the mutexes of each goroutine in `istate`.

## 2. Trusted base

See section 4.

## 3. Properties: model and proof

| Id | Model | Proof |
|----|-------|-------|
| C01, C59 | `knn_brute` at f64 | bubble = stable insertion; strict weak order of SFltb; scores of any order of the pool (KnnTies.v) |
| C02 | same, any Num | result positions invariant |
| C03 | `cosine`, f64 | refutation by computation; characterisation |
| C04 | `euclid`, f64 and R | refutation by computation; L1 identity over R |
| C05 | R instance | Cauchy-Schwarz by induction |
| C06 | any Num | case analysis |
| C07, C08 | any Num / exact | induction over vectors |
| C09-C11, C16-C19 | centroid functions in M | wp, multiset invariants |
| C12-C14, C60 | exact Num | inductive invariant over op lists; refutation for MemTrim |
| C15 | f64 | refutation by computation; error analysis of rounding, +, -, *, / (`FloatRound.v`, `FloatOps.v`) and an invariant over op lists that carries the error (`FloatMean.v`) |
| C20 | pool model | wp, loop invariants |
| C21-C24, C29-C35, C61-C65 | manager functions in M | wp, invariants; per-centroid specifications |
| C25, C26 | op sequences | induction over the op list |
| C27, C28 | exact Num / f64 | invariant + refutations |
| C36-C39 | server handlers | case analysis over requests |
| C40, C67 | pools of requests | ownership invariant over all schedules; refutation trace |
| C41 | instruction-level mutexes, all jobs | simulation by `interleave`, then C71/C72 |
| C42, C43, C47, C48, C50 | cluster model with network fates | wp over call sequences; refutation traces |
| C44 | client post-processing | induction; refutation |
| C45, C46 | bestFitNodes, fetch protocol | C01 + permutation; transition system |
| C49, C51, C57, C58, C68 | HTTP handlers, configuration | direct; refutations; what JSON can encode (`JsonSpec.v`) by comparison with the largest float64 |
| C52-C55 | event loop state machine | arithmetic, invariants, refutations |
| C56 | load-balancing loop over Z | loop invariant |
| C69, C70 | one event loop, shipped services | C71, C72 |
| C71-C75, C77 | pools of jobs | ownership invariant over all schedules, for any kind of slot invariant (Slots.v) |
| C66 | pools of clients | simulation of the steps of requests by whole requests (LinearProofs.v); refutation traces |
| C78 | one request | specification of each request's effect (ReqSpec.v), from the manager theorems |
| C79 | client methods | each as one request (ClientSpec.v), equality of executions |
| C80 | lookup | inductive description of the walk (`Collected`), loop invariant |
| C81 | HTTP put and query | counting: a lookup that overlooks nothing returns everything; specification of the answer (C68) |
| C82 | HTTP query | refuted by computation; one centroid: `BestK` of the search carried through the layers |
| C83 | programs over slices and pointers | slices that share no array behave as lists (MemProofs.v), for every program; then simulation of the pointer program by the model with values (MemSim.v, MemCenProofs.v, MemMgrProofs.v) |
| C84, C85 | programs over slices and pointers | refuted by computation; the bound that MemTrim does achieve by footprints (`MemRoom.v`) and induction |
| C86 | processes | each client call is one request (ClientProofs.v); the tasks are sequences of such calls (TaskProofs.v) |
| C87 | processes, default logger | the metadata theorem C36 per address; the two exceptions by computation |
| C88 | interleavings | invariant of every step of every process (ThreshProofs.v) |
| C89 | f64 | correct rounding of the root (`FloatSqrt.v`), roots of squares are exact (`FloatTerm.v`), error of sums (`FloatDist.v`, `FloatDot.v`), then real analysis with Cauchy-Schwarz (`FloatCos.v`) |
| C90 | f64 | C01 and C89; finite floats are compared by their values (`FloatSearch.v`, `FloatFind.v`) |
| C91 | f64 | refuted by computation (`FloatFind.v`) |
| C92 | interleavings, any network | invariant of every step of every process (OriginProofs.v) |
| C93 | interleavings, any network | tokens: a process holds the datapoints it may still store; a lost answer pays for one more (CopiesProofs.v) |
| C94 | interleavings, any network | the dual: a process owes the datapoints it has taken (LossProofs.v); refutation trace |
| C95 | interleavings, any network | ticks never go back (ExpiryTime.v); invariant of every step of every process between the first and the last tick (ExpiryProofs.v); refuted for NearestCentroids by computation |
| C96 | event loop on one node, any network | each run of an upkeep task is one request per namespace (C86); what each request does to a manager, sweep by sweep (UpkeepProofs.v) |
| C97 | event loop, perfect network | one steal moves whole centroids; the pulls of a task add up (SettleSteal.v, SettleProofs.v); refuted by a world in which one centroid goes to and fro |
| C98 | event loop, perfect network; f64 for the lock-out | what a search finds is taken (GainSteal.v, GainProofs.v); a vector with a NaN ranks nothing and is ranked by nobody (GainCase.v) |
| C99 | event loop, any network | each task is a finite list of requests (C86); a steal loop takes a centroid per turn (BalanceEnds.v, LoopEnds.v); more fuel changes nothing (FuelProofs.v) |
| C100 | listener of a node | transition system of two goroutines and the connections (Listen.v); invariants over all event sequences (ListenProofs.v); refuted by computed runs |
| C101 | HTTP interface | the multiplexer's rules, path cleaning included (Routes.v, RoutesProofs.v) |
| C102 | HTTP interface | decoding member by member, compared with what is documented (Json.v, BodySpec.v, BodyProofs.v); refuted for empty bodies by computation |
| C103 | event loop, perfect network | a steal permutes groups of datapoints (SettleKeep.v); each run that moves something lowers the imbalance, and a quiet round means that nobody can pull (RestProofs.v) |
| C104 | log | decimal numbers, padding and lines can be split again (LogTextProofs.v); refuted by a computed namespace |
| C76 | sequences of requests; pool of three requests | exec-level invariant (Uniform.v); refutation trace |
| C105 | Alloc.v: whole systems, counts limited by `make` | within the limit it is the model of C71; beyond it a count acts like a negative one |
| C106 | MathUtils.v, Centroid.v, CManager.v at f64 | rounding error of a sum and a quotient, from FloatMean.v |
| C107 | Fused.v | rounding error of a fused sum, in the lemmas of C89 and C91 |
| C108 | Reset.v (Server.v, Core.v, EventLoop.v) | the ownership, copies and losses logics of C71, C93, C94, with namespaces that may vanish; refutation traces |
| C109 | JsonText.v (Json.v) | a parser that is exactly the grammar of TextSpec.v, by mutual induction; long division for the rounding; the calendar in closed form; refutations by witnesses |
| C110 | ShowFloat.v (JsonText.v) | there is one closest binary64 number; what is between a number and a decimal that is read as it is read as it, too; a grid of decimals; the gap between numbers for seventeen digits |
| C111 | Gob.v, GobWire.v, Zones.v | big-endian numbers, the bits of a float, nested induction over values; fields that are left out |
| C112 | Zones.v, JsonText.v, ShowFloat.v, GobWire.v | put together from C101, C109, C81, C110 and C111; sizes of texts by induction over the grammar |
| C113 | Shared.v | the loop over the shared state refines the loop of EventLoop.v; pools by induction over the schedule; the tasks that a process may still start, as a fixpoint over processes; two loops by evaluation |
| C114 | EventLoop.v | a state that two turns lead back to |
| C115 | Core.v | the ranking of the nodes joined with that of each node's own centroids |
| C116 | Server.v | induction over the datapoints; each step as in C115 |

No property is dropped as inexpressible.

## 4. Trusted base (details)

**Kernel.** Coq 8.16.1's kernel, including its virtual machine (`vm_compute` closes Examples and
witnesses of refutations).  No plugin, no native compilation, no flag that weakens checking.

**Axioms.** `Print Assumptions` stands beneath each theorem in `Props01.v` ... `Props36.v`.  It prints
"Closed under the global context" for all but these nine, whose statements are about real numbers:

* `C04_euclidean_partial`, `C04_euclidean_upper_partial`, `C05_cosine_measure`,
  `C05_distance_metric`, `C89_cosine`, `C90_cosine`, `C91_cosine_refuted`,
  `C107_cosine`, `C107_search`: `ClassicalDedekindReals.sig_forall_dec`,
  `ClassicalDedekindReals.sig_not_dec`, `FunctionalExtensionality.functional_extensionality_dep`
  (standard library).

A checker that lists the axioms of every loaded library file also sees those of the standard
library's reals and of ssreflect's `Under_rel` (a sealed module); no other theorem uses them.

**The model.** That the definitions in `Base, Num, MathUtils, Knn, Env, Centroid, CManager, Proc,
Server, Core, EventLoop, Log, Fetch, Service, Locks, Memory, MemCentroid, MemManager, Listen, Routes, Json, LogText, Alloc, Fused, JsonText, ShowFloat, Gob, GobWire, Zones` say what the Go code does is checked by
reading only.  Each definition cites the lines it models.

| Code | Model | Not modelled |
|------|-------|--------------|
| pkg/mathutils | MathUtils.v, all of it | `Vec` (a variadic constructor) |
| pkg/searchutils | Knn.v, all of it | |
| pkg/kmeans/common | Env.v | |
| pkg/kmeans/centroid | Centroid.v, all methods; MemCentroid.v with slices and pointers | |
| pkg/kmeans/centroidmanager | CManager.v, all methods; MemManager.v with slices and pointers (not: distribution to centroids outside the manager) | |
| pkg/kmeans/rpc/rpc.go | Server.v, Locks.v: table, slots, mutexes, Access, AddSlot, Namespaces; Listen.v: listening, accepting and closing of connections; Reset.v: Reset | a client cannot be told that an address does not parse |
| pkg/kmeans/rpc/server.go, client.go, serverutils.go | Server.v, Fetch.v: all methods; GobWire.v: the bytes of calls and answers | descriptions of types, NaN payloads |
| core/nodes, core/dps | Core.v, Fetch.v: all functions | |
| core/api | Core.v: both handlers, conversions, APIConfig.check; Routes.v: routing by path, with the rules of net/http; Json.v: decoding and encoding of JSON values, with the rules of encoding/json; JsonText.v and ShowFloat.v: the texts of bodies and answers, with the rules of encoding/json, encoding/base64, time and strconv | http.Server timeouts |
| core/eventloop | EventLoop.v: all tasks, skips, clamps, stop, load balancing; Shared.v: several loops with one configuration; Log.v: what the default logger tells; LogText.v: the text of the log and of the descriptions of tasks | the clearing of the terminal, time.Sleep between rounds |
| cfg, cmd/service | Service.v: the shipped values, start-up of the service | |
| pkg/arbiter | Fetch.v: the two functions that compute something | the constructors of an unfinished package |
| core/testutils, *_test.go | | all |

**What the model idealises.**

* Integers are unbounded (`Z`, `nat`); Go's `int` is 64 bits wide.  Loop counters and lengths
  cannot reach 2^63 (the event loop's counter starts anew after 1000).
* Every product and sum of floats is rounded.  The Go specification lets a compiler fuse `x*y + z`
  (it does on arm64, ppc64 and s390x, not on amd64).  Fused.v and C107 are about the cosine
  similarity when it does.
* Strings are byte lists; times are integers; memory is unbounded.  (Go's `make` panics for counts
  beyond about 2^41; so read every `0 <= n` about a count as also bounding it.  Alloc.v and C105
  have the limit.)
* Slices are lists, except in Memory.v, where they have arrays and capacities; C83 says that this
  makes no difference to the centroids and their manager.
* Goroutines interleave at the granularity of section 1.  The Go memory model's weaker
  guarantees for unsynchronised accesses are not modelled.  The code has three such races: the
  event loop's `stopped` flag (here: each read returns any value the environment chooses); the
  centroids whose pointers `NearestCentroids` returns without draining, which net/rpc encodes after
  the slot's mutex has been released (here, but for C84: the answer is a copy made under the
  mutex); and the logger's fields.  (A fourth one, on the counter, needs two loops with one
  configuration: Shared.v.)  Vectors are handed out as copies, or are not written to after.
* net/rpc and the network: a call reaches its handler at most once, and is answered or not.  An
  answer is what the handler computed, up to what gob does to it, which is in Gob.v and GobWire.v and
  C111: it cannot tell empty from nil slices, which the model of the client takes into account;
  unexported fields of a centroid are not sent; a time whose offset is one minute west cannot be sent
  (Zones.v, C111 only).  The descriptions of types that gob sends before the first value of each are left out.  A call to an address without a node fails.  That a node crashes and comes
  back is in Reset.v and C108 only.
* net/http recovers from a handler's panic and closes the connection (`Aborted`); net/rpc does
  not recover, so a handler's panic is the end of the node (`Panic`).
* The service's clock, map iteration orders and random numbers are whatever the environment says,
  which is weaker than what Go does.
