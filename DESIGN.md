# Formal model of CGraph in Rocq (Coq 8.16.1)

Nothing of CGraph is built or run. The source in /repo is read as text, re-expressed as total
Gallina functions, and the properties of properties.jsonl are proved about those functions.

## Conventions

* `theories/<X>Model.v` — definitions only, each with a comment citing the file and lines it models and
  saying what is simplified.
* `theories/<X>Spec.v` — small independent specifications (no reference to the model's helpers), where the
  property needs vocabulary such as "path", "antichain", "bounded FIFO".
* `theories/<X>Proofs.v` — lemmas.
* `theories/<X>Props.v` — the property theorems only (`exact lemma.` + `Print Assumptions`) with non-vacuity
  `Example`s.
* Sequential code: state-transforming functions over records. User callbacks (run/init/aspects...) are oracles:
  arbitrary functions universally quantified in the theorem.
* Concurrent code: a labelled transition system `step : state -> label -> option state`, one label per atomic
  action of one thread (granularity: one critical section, one atomic RMW, or one condition-variable
  test/sleep/notify). A schedule is any list of labels; theorems quantify over all of them.
* Undefined behaviour (use after free, out-of-range index, empty back()) is a distinct outcome (`UB`).
* `_refuted` theorems exhibit a reachable execution of the faithful model violating the full English property;
  `_partial` theorems prove the part that does hold.

## Plan per property

| id | model | proof |
|----|-------|-------|
| C01 | CStatus as (code:Z, info) with += exactly as written | structural induction on the sequence |
| C02 | dependency lists of elements as functions id -> list, addDepend/removeDepend loops with early return | invariant over histories |
| C03 | getTopo queue loop, static layering loop, isDag | Kahn invariant; cycle => remaining set; acyclic via a rank function |
| C04 | topo engine run loop over oracle results | induction over the topo order |
| C05 | static engine layer run, any permutation of layer execution | per layer lemma + layering of C03 |
| C06-C09 | dynamic engine as an LTS: tasks queue/running/decrement steps, waiter, status, cv sleep/notify | inductive invariant over all schedules; potential function for termination |
| C10 | calcShape, mark, analysisDagType, analysisParallelMatrix | counting argument: total-1 LINKABLE and one front => chain |
| C11 | collectPaths (fuelled DFS), trim loop | path characterisation; transitive reduction uniqueness |
| C12 | clique branch and bound with cut-offs | B&B soundness/completeness vs. antichain spec |
| C13 | getPatch path test | path characterisation |
| C14,C15,C17 | fatProcessor as trace-producing function over callback oracles | induction on loop count |
| C16 | engines' CHECK_STATUS throw + pipeline run | refutation + dynamic engine positive part |
| C18 | setters | invariant |
| C19-C21 | group run functions | induction on children; permutation for parallel |
| C22,C23,C55 | some-group LTS and done/timeout flags | invariant; refutation for nested loops and for left-over tasks |
| C61,C62 | RingModel: circular array; n threads with two condition variables | refutation by computation on every size; counting invariant over all schedules |
| C59 | ContModel: an argument that refers into the vector | refutation at growth, partial otherwise |
| C60 | ParamModel: set of used parameter objects per element, deleted objects | exact condition for a dangling read; refutation |
| C24,C25,C56,C57,C58 | pipeline lifecycle machine over trees of elements, callbacks as a function of the log | invariant over API histories; exact call logs; refutations |
| C26,C27 | param manager as association list; run skeleton trace | refinement to map; trace lemma |
| C28 | event manager: futures lists per strategy, asyncWait | invariant over LTS |
| C29 | ring buffer arrays with head/tail arithmetic | refinement to list queue |
| C64,C65 | StageModel: condition variable with any number of threads; map of stages | refutation by a trapped set of states; invariant for polite schedules |
| C40,C41,C43,C44,C70,C71 | PoolModel: one step per critical section of the queues, callers, primary and secondary threads, monitor and destroy interleave freely; allocation addresses and try_lock results are inputs | census of every task over all places, potential argument for draining, reachability for the refutations |
| C42,C72 | TGroupModel: futures with completion times, late wake-ups | induction over the list of tasks |
| C47,C73,C74 | TimerModel: timer thread and one user interleave, lost notifications and spurious wake-ups | invariant over all schedules; refutation by a schedule |
| C75-C78 | SyncModel: one step per atomic access, threads interleave | invariants over all schedules; refutations for every capacity and number of signals |
| C28,C79,C80 | EventModel: owner, notifying threads and pool interleave; future lists with their locks; pool deletion | invariants over all schedules; refutation by schedules for every event |
| C34,C35 | StateModel: owner, controller and element threads as a step function; pushAllState stores and notifies element by element, checkSuspend split into test, lock, fall asleep, sleep | invariant over every schedule; measure for the end of a cancelled run; witnesses for lost work and lost wake-up |
| C36,C81 | TimeoutModel: element threads, bodies in the pool and the owner interleave; a wait may expire whenever the body has not ended | invariant relating each element's events of the run to its state; refutations by schedules |
| C38,C68,C69 | ReflModel: byte buffers with explicit offsets, back-patched vector lengths, reads outside the buffer are undefined behaviour | induction on the type |
| C66,C67 | PmModel: lists of free and used pipelines, threads inside run() | refutation for every pipeline; invariant on histories |
| C63 | MsgModel: values carry the type they were made with | refutation for every pair of types; partial for well-typed use |
| C30,C31 | message manager with heap of buffers, dangling pointers as UB | refinement / refutation |
| C32 | stage LTS incl. predicate re-check after wake up | safety invariant; refutation of liveness |
| C33 | free/used lists | invariant over histories |
| C37,C82 | PerfModel: inject, the perf aspect, marking of the longest path (on OptModel's collectPaths), recover; a heap of perf data; the run as an arbitrary list of aspect events | invariant of the run per element, completeness of the collected paths; refutations for a failing run and for an aspect added by a body |
| C39 | StoreModel.v: save, the storage structures and their tables as types of ReflModel, load with its three loops over the elements, the factory as a map from class names; round trip by induction over each loop with the heap split at the current element, refutations for parameters, settings, data, unregistered elements, loop 0 and saving a loaded pipeline |
| C40,C41 | pool LTS with queues | multiset invariant; refutation for unreachable queues |
| C42 | submit over abstract completion times | induction |
| C43 | priority queue ordered by pointer | refutation; partial for monotone addresses |
| C44 | create/release; racy size read | sequential invariant; refutation under interleaving |
| C45 | list + map LRU | refinement to recency spec |
| C46 | array + index model | refinement to list |
| C47 | timer arithmetic and LTS | lia; invariant |
| C48, C83 | SingleModel.v: histories of registrations, inits, runs, destroys, deletions of any number of pipelines around one shared object; concurrent inits | the flag is the object's life (all histories); invariants for one pipeline; refutations for two pipelines, failing init/destroy, concurrent init, last registration |
| C84 | SingleModel.v: USingleton::get with its lock, step by step | invariant over all interleavings; the unlocked read is a race |
| C85, C86 | MutModel.v: GMutable setup / reshape operations / GElementManager::process, with what the engine keeps between executions, on top of the three engine paths (FastModel, DynModel) | state after reshape determined by induction over its operations from an arbitrary state; then C03, C06, C07, C09, C10; witnesses for a cycle after a chain (never ends) and for children executed in spite of the error |
| C87 | FenceModel.v: GFence::run and getAsyncResult on top of TimeoutModel (waits, late bodies, reset); who uses an element's future when | invariants: what each element's future holds relative to its latest body; what a fence has dealt with; refutations as concrete schedules |
| C88 | OwnModel.v: factory, pipelines, repositories, groups and elements as a heap; every use of a deleted object is the outcome OBad | invariant of tidy programs: repositories are disjoint and hold only what their pipeline made; deleted = owned by a deleted pipeline; refutations for all programs that share, remove twice, or fail to create |
| C89 | DumpModel.v: the statements written by dump for every class of element, and the characters of every statement | structural induction over the tree of elements: a reader of the text (block stack, edges; a lexer for quotes and braces) gives back the pipeline, and the characters that declare every element, block and arrow occur in the text; refutations: mutable groups, quotes in names, red bypasses, stream state |
| C90 | RegModel.v: the registration functions over the dependency graph of GraphModel, with the outcomes accepted, refused, thrown | unchanged state for clean refusals, frame for all refusals, erasing refused calls from a program; refutations for all calls with a foreign dependency after an allowed one, and with a run of the engine of DynModel |
| C91 | QueueModel.v: one label per access to mutex, container, flag or condition variable, by any number of threads | invariant relating the container to the replayed effects (linearization at the unlock); counting invariant for wake-ups; measure for the end of all calls; refutation of race freedom |
| C92 | ElemModel.v, as for C14; AspectSpec.v: what one aspect sees of the calls | from the grammar of calls of C14_calls: rounds of begin and finish, also for several loops; refutations for all user code with a failing begin or a throwing body |
| C93 | CoordModel.v: createSecondaryThread, releaseSecondaryThread, the sweep of the monitor and the loop of secondary threads action by action, any callers; CoordSpec.v: the calls at once | invariant: the log is a history of calls at once and the call that holds the mutex is in the middle of the next; a variant-free completion argument (owner first, then one caller after the other); a stuck pair preserved by every step; runs to the crash |
| C94 | NestModel.v: nested groups on one pool; the programs of the threads are call stacks, tasks are in numbered queues, a relation says which thread serves which queue; NestSpec.v: trees of elements, waiting groups, servers of a queue | invariant over all schedules; every action adds to one of four duplicate-free lists, so schedules are bounded; no stuck state when every queue has more servers than there are waiting groups (chain of waits in the order of starts); a family of pipelines that gets stuck otherwise, by induction on the threads |
| C95 | LockModel.v adds the settings of the elements and their setters to PipeModel.v. By the invariant that a step changes is_init_ of managed elements only: setters are refused for groups and for elements of the pipeline or of a region; refuted for nodes in other groups, in every history. |
| C96, C97 | DistModel.v: vectors as arrays, reads outside them are undefined, lengths multiply modulo 2^64, numbers abstract. Induction over the loops; the cosine part is refuted. |
| C98, C99 | The same model on the standard library's real numbers; Cauchy-Schwarz by induction. normalize on integers refuted. |
| C100 | AnnModel.v: the table built by the constructor and run; case analysis over all integers. |
| C101 | LevelModel.v: the sorter, manager_elements_ as a set whose search needs the current order (undefined otherwise), children_ as a list, programs of create / setLevel / register calls; the result is the tree list the life cycle of PipeModel.v iterates. Invariant by induction over programs: every set is sorted by the final levels when these are set in time. Refutations for every set of nodes and every later choice of levels. Not covered: the order in which a failed init stopped; load (which sets levels before registration). |
| C102 | WholeModel.v: the engines behind the pipeline of PipeModel, the history of inits, starts, ends and destroys; by the life-cycle lemmas of PipeLife, the shape of process (C24), a kind-of-call invariant of init and destroy, and the theorems of each engine. |
| C103 | ParamConModel.v: threads calling the operations of ParamModel, with lookup and change of the map as steps of their own and overlap as undefined; by an invariant that ties each thread, the mutex and the trace together; refutations by schedules that work from every quiet state. |
| C104 | PlaceModel.v: children_, belong_, the registered set and the flag isRegistered under every creating and registering call; a permutation invariant (roots and children together are what accepted calls gave away), from which uniqueness and the tree follow; refutations from every history. |
| C105 | PassModel.v: a heap of objects, pointers of the user and of everybody who holds a parameter, deletes and clones in the order of the code; refinement to a semantics of values (PassSpec.v), with every live object known to exactly one pointer; refutations of self passing from every history. |
| C106 | On PoolModel.v: what each queue and thread may hold, given who may execute what (BindSpec.v), as an invariant of all steps; for the order, the line of a thread (tasks held, then its queue), which steps extend in front, extend at the end, or shorten by executing the first. |
| C107 | AsyncModel.v: init, run, destroy and process cut into steps, a user thread with a program, a thread per asynchronous future; refinement of tidy programs to calls without steps (AsyncSpec.v), with an exact count of the steps left, so that all schedules end alike; refutations by schedules for every pipeline. |
| C108 | EngPoolModel.v: the dynamic engine (DynModel.v) and the pool (PoolModel.v) in one state, an element given by the one is a submit of the other, and a pool thread that comes to the task picks it; invariant: every task of an element in the pool is waiting in the engine, and a bound element is started only at the beginning of its own task. |
| C109 | The model of C108. A measure (work left in the engine and in the queues) that no step increases, and a rank of the one who has to act next (the caller, a thread inside an element, one with tasks in its hands, one whose queue is not empty), which every step of that one decreases: rounds of fair schedules end. For the existence of rounds: everyone who is not resting can act, since threads inside elements are different threads, the mutex of the engine is always given back, and what a thread executes is waiting in the engine. |
| C110 | The static engine and the pool as one transition system (SEngModel): a commit of the caller is a submission to the pool, a task of an element that a thread of the pool comes to is the start of the element, and the thread is inside it until it finishes. Invariant: the history splits into one of each, and the tasks of elements in the pool are those waiting in the engine. The measure and rank of C109 for termination; the census of the pool and the layer barrier of the static engine for nothing being left. |
| C111 | parallelRunAll and the pool as one transition system (PEngModel): the calls of a run are the calls of its matrix in order, one per element; a task of an element that a thread of the pool comes to is a thread that starts parallelRunOne. Invariant: the remaining calls keep the protocol of executeWithTid and the queue locked by the caller is that of the open row; the tasks of elements in the pool are those waiting in the engine; each thread is inside an element of its row. The measure and rank of C109 for termination. |
| C112 | load on an arbitrary pipeline as a function to a result and the pipeline left behind (LoadModel), every loop stopping at its first error with what it has done so far; agreement with the load of C39 by a simulation of the loops; that all elements come from the file as an invariant of the three loops; numbers read from bytes fit their fields by induction on the type; the group of every element as an invariant of the second and third loop (LoadGroups). All-or-nothing refuted for every pipeline with a parameter. |
| C113 | a step function for the user of the pipeline and the threads of n timers (DaemModel), deletion in the steps of the destructors, a task at the same time as a destructor being a distinct outcome. Invariant: every timer is in a state reachable in TimerModel, and whether it is asked to stop is a function of the place of the user and the calls so far; with care, all threads have ended when deletion begins. Refuted: failed init and destroy, deletion of an initialised pipeline. |
| C114 | bodies as programs of reads and writes, an interleaving semantics that emits the trace of starts and ends, coupled to engine_run (DataModel). By induction on the sequential order: the last element is removed from the interleaving; what it touches nobody else touches after its start, so both executions are related by a simulation, and memory at the end is that of the rest with the last element executed on it. Holds for incomplete runs as well, on places whose writers have all ended. |
| C115 | the owner of a pipeline as a small program beside DynModel, one log of starts, ends and actions of the owner (LeftModel). Invariant over the log: starts minus ends are the bodies in the bag of pending actions; after a run without errors only harmless actions are pending. Refuted by schedules when an element fails; what is left then is bounded with the invariant of C06 to C09 and its measure. Static engine: at every check of the status all futures so far have been joined. |
| C116 | a transition system over trees: each group carries the trace of its children in its current execution, which must be one its own model allows (TreeModel). Invariant: what ended well left its whole subtree at rest, so an element that starts (again) starts on a subtree at rest, and a subtree at rest cannot start anything by itself; a second invariant finds, for every error below a group, a chain of executing groups up to it. |
| C117 | TreeModel and DataModel together: the starts and ends of nodes in the log of the tree are those of the programs. Every element starts at most once per run (counting along the tree); a node starts after all nodes ordered before it at any level have ended (C116), so the commutation argument of C114 applies to the nodes. Later runs: a simulation by a fresh tree, since what succeeded left everything at rest. |
| C118 | LockModel: one case per call for the effect; histories by induction, for each setting with a projection and the calls that name it. |
| C119 | RegModel: when the loop of addDependGElements goes through, and what it leaves (C02); programs by induction. |
| C120 | EventModel: with the invariants of C28, a future that is waited for belongs to a task the pool has; a weight (tasks, futures not stored, events and futures to wait for) decreases with every step that is not a new call. |
| C121 | ShareModel: any number of engines on one pool. A history of all projects to a history of each pipeline with the pool (the others are strangers who give tasks), so C06-C09 and C108 carry over; an engine gives only its own elements. Rounds of all project to rounds of one, except for those in which others act on their engines, and of these there are at most as many as the others have steps left (measure of C08); then C109. Existence of rounds: as C109, for all callers and threads. |
| C122 | RelationModel: the places of PlaceModel and the dependencies of GraphModel in one history, getRelation reads both. The places are those of the place calls alone, the edges satisfy the invariant of C02; a ledger of the accepted calls (last word wins) is compared with the predecessors by induction over the history; children and belong from C104; refutations by computed histories. |
| C123 | HbModel: every step of DynModel also logs its atomic operations, locks and plain accesses to the status, with the memory orders of the source; HbSpec defines happens-before on such a log (thread order, release to acquire unless a plain store comes between, transitivity). A fold over the log computes what each thread and object knows, proved sound for happens-before; the invariant (beside the one of C06) says that a released element's thread or task knows the ends of all its dependencies, by counting the decrements of its counter; refutations by computed logs and sets closed under all possible edges. |
| C124 | NotifyModel: run's thread in its waiting loop, W threads, elements left over with a list of notifications, commit and store of a future as two steps, the lock of the event held while waiting. Progress: the threads that may block are fewer than W, so one is free or goes on; termination by a weight of tasks, futures and events; refutation: a schedule built for every W, and an invariant that keeps run waiting. |
| C125 | StatHbModel, ParHbModel: each step of the models of C05 and C10 also appends to a log what its thread did to memory: locks, atomic loads and stores, read-modify-writes with release only, futures, reads and writes of the shared status. happens_before (HbSpec, shared with C123) is computed from the log alone. Proof: invariants that tie queue entries, futures, counter and locks to the notes they carry; refutation: a concrete log and a closed set of later positions. |
| C126 | WmSpec: a machine with views for release, acquire and relaxed accesses of atomics and data races of other objects; WmModel: the ring and the spin lock on it, with the orders the code names. Proof: an invariant on the views of threads and of stored values (what a known index value implies about known slot accesses, counted per slot); for the lock: the holder, or the last value of a free flag, knows every access. |
| C127 | StopHbSpec: happens-before over a log (program order, mutexes, thread construction, join) and races of the stop flags; StopHbModel: init, destroy, creation, release and monitoring of secondary threads, the loops of the pool threads. Proof: invariants about what each thread and each lock knows; runs that show the races. |
| C128 | MsgConModel: threads in createTopic, removeTopic, sendTopicValue and recvTopicValue at the level of the mutex, the lookup, the change of the map and the use of the message through a pointer, with the effects of MsgModel. Proof: an invariant ties the trace of effects to the sequential history, whose answers are those of bounded queues (C30); delivery by induction on the effects; data races and uses of deleted messages as schedules from every quiet state. |
| C129 | PubConModel: threads in bindTopic, pubTopicValue and subTopicValue at the level of the mutex, the lookups, the insertion and each push of the publication loop, with the ring buffers of RingModel. Specification on the trace of calls, binds, pushes and pops. Proof: invariants tie the containers to the trace and each thread to what its call did so far; reordering and data races as schedules from every quiet state. |
| C130 | ChanHbSpec: happens-before over a log (order of each thread, unlock before later locks), data races on the objects that messages point to, who holds an object; ChanHbModel: sends and receives at the level of the mutex of each buffer, sleeps and accesses, mixed with arbitrary uses of objects. Proof: what the holder of a mutex, or its last unlock, knows; the conditions on the log by induction over positions; races as two adjacent uses after a send and a receive from every quiet state. |
| C131 | WatchSpec: the accesses of the two flags by the user and the monitor thread, happens-before by the start and the join of the monitor, data races; WatchModel: setConfig, init, destroy, deletion and the monitor of a pool, statement by statement as far as they share flags, the vector of the primary threads and the threads themselves. Proof: an invariant of all runs (what is in the vector and whether there is a monitor at each point of the user), a second one for runs without destroy (no monitor while threads are deleted, it holds living threads), a measure for the end of the monitor; crash, use after deletion and races by runs from every such state. Not modelled: other changes by setConfig than whether the pool is watched, secondary threads (C127). |
| C132 | TimUseModel: any number of threads in start and stop of a timer, statement by statement, with the timer threads they make, which may wake at any moment; TimUseSpec: users that take turns, timer threads that work. Proof: an invariant for each point of the one call that is going on; one for runs without stop; for a start inside a stop a set of states that is not left without a further stop. Not modelled: the data race on the future object itself in such cases, exceptions of the task (C74), time (C47). |
| C133 | RandModel: both generate functions and generateSession as loops over an arbitrary engine, std::to_string on digits. Proof: closed forms of the loops by induction; length and value of decimal digits by induction on the length. |
| C49 | SerialModel.v: checkSerializable over trees of elements, the run without pool threads as a function of the tree | induction over the tree, chain lemma for each level; refutations for mixed bindings (for all such pipelines), parallel multi conditions, timeouts inside clusters, later registration |
| C50 | set + array | induction |

## Trusted base

1. **Kernel.** The kernel of Coq 8.16.1 (`coqc`; `coqchk` re-checks the compiled files). No flag switches a check
   off; `vm_compute` is used in proofs of concrete examples and refutations, so its reduction machine is trusted too.
2. **Assumptions.** `Print Assumptions` answers "Closed under the global context" for every theorem named in
   MANIFEST.json (`python3 tools/assumptions.py` runs it on all of them after a build), with three exceptions: C98_metric,
   C99_cosine and C99_normalize_partial are about real numbers and depend on the axioms of the standard library's Reals,
   `ClassicalDedekindReals.sig_not_dec`, `ClassicalDedekindReals.sig_forall_dec` and
   `FunctionalExtensionality.functional_extensionality_dep`. No other theorem uses an axiom. The development adds no axiom,
   parameter, functor or module type. (Loading the standard library's ssreflect prelude makes a global listing show the
   opaque constants `Coq.ssr.ssrunder.*`; no theorem depends on them. Because DistReal.v loads Reals, a listing over
   everything loaded also shows `Classical_Prop.classic` and the sealed constants of `Coq.Reals.Rdefinitions`
   (`RbaseSymbolsImpl`, `RinvImpl`); the theorems depend on the three axioms above only.)
3. **The translation.** Everything is about Gallina definitions written by hand from the text of /repo. Each definition
   cites the lines it follows and says what it leaves out. Nothing links the two mechanically.
4. **Idealisations common to all models.**
   * Memory is sequentially consistent: memory orders and data races are not modelled, except where a property is about
     them: races of fences (C87), happens-before on the engines (C123, C125), weak memory for the ring and the spin lock
     (C126). Models name the data races found in the code in their comments.
   * Allocation never fails, threads can always be created, files can be written and read.
   * Machine integers are unbounded unless the model says otherwise (StatusModel: int as Z without arithmetic; PoolModel: the
     32 bit round-robin counter wraps; ReflModel and StoreModel: eight byte sizes; RingModel, SyncModel: sizes as in the code).
   * Floating point occurs only in the distances, which are modelled with exact arithmetic (no rounding); times are integers.
   * User callbacks (run, init, aspects, isMatch, ...) are arbitrary results or arbitrary functions; they do not call back into
     the pipeline that runs them unless the model has a label for it.
   * Names, descriptions, log output and graphviz text are not modelled unless listed below.

## What is modelled

| source (below /repo/src) | model |
|---|---|
| CBasic/CStatus.h | StatusModel (whole class) |
| GraphElement/GElement.cpp, GElement.h, GElement.inl | dependencies: GraphModel; fatProcessor, loop, aspects, exceptions: ElemModel; state, suspend, cancel: StateModel; timeout, async, reset: TimeoutModel; local parameters: ParamModel; registration data: PipeModel, StoreModel |
| GraphElement/GElementManager.cpp, GElementRepository.cpp | PipeModel, MutModel, StateModel, TimeoutModel, SerialModel |
| GraphElement/_GEngine/* | GraphModel (topological engine, layering), StaticModel, DynModel (common path), FastModel (graph types, serial and parallel paths) |
| GraphElement/_GOptimizer/* | OptModel (path collection, trim, maximal parallelism, separation) |
| GraphElement/GGroup/* | GroupModel (cluster, condition, multi-condition, some), PipeModel (region), MutModel (mutable) |
| GraphElement/GAdapter/* | SingleModel (singleton), FenceModel (fence) |
| ThreadPool/UThreadPool.cpp (createSecondaryThread, releaseSecondaryThread, monitor sweep), GCoordinator.inl run | CoordModel |
| GDynamicEngine.cpp with GRegion::run and GMultiCondition::run nested in each other, on UThreadPool (who waits where) | NestModel |
| Setters of GElement, GFunction::setFunction and GNode::spawn against is_init_ (empty names, null pointers, calls made inside init() and data races left out) | LockModel |
| UtilsCtrl/Distance: UDistance, UDistanceCalculator, Euclidean and cosine (one number type; exact arithmetic) | DistModel, DistReal |
| DomainCtrl/Ann: DAnnNode constructor and run | AnnModel |
| GElementSorter, setLevel, manager_elements_ as an ordered set, children_ | LevelModel |
| GElementManager: which engine, its setup and its run as seen from the pipeline | WholeModel |
| createGNode, createGGroup, register calls, GGroup::addElement, addManagers, getDeepPath: which element is where | PlaceModel |
| Passed parameters: setAParam, getAParam, setDParam, setSParam, createWithParam, addGAspect, addGDaemon, addGEvent, addGStage, addEParam, getEParam | PassModel |
| asyncRun, asyncProcess with futures (steps of init, run, destroy, process; elements one after the other) | AsyncModel |
| The dynamic engine on the pool; calls of parallelRunAll | EngPoolModel |
| GraphAspect/GAspectManager.cpp | ElemModel |
| GraphParam/* | ParamModel, ParamConModel (several threads), ContModel (backtrace), PipeModel (setup and reset around a run) |
| GraphEvent/*, GraphDaemon/*, Timer/UTimer.h | EventModel, PipeModel (life cycle), TimerModel, TimUseModel (several users of a timer) |
| GraphMessage/*, Queue/UAtomicRingBufferQueue.h | RingModel, MsgModel, MsgConModel, PubConModel, ChanHbModel (threads) |
| GraphStage/* | StageModel |
| GraphPipeline/GPipeline.cpp | PipeModel (life cycle), StateModel (cancel, suspend, resume), SerialModel (makeSerial), PerfModel (perf), StoreModel (save, load) |
| GraphPipeline/GPipelineFactory.cpp, GPipeline.inl (create, register), destructors | OwnModel |
| dump of GPipeline, GElement, GGroup, GCluster, GRegion, GCondition, GSome, GFence, GCoordinator | DumpModel |
| registerGElement, registerGNode, registerGGroup, innerRegister, addElementInfo | RegModel (effects), OwnModel (ownership) |
| UWorkStealingQueue, UAtomicQueue at the level of single accesses | QueueModel (PoolModel uses their operations as single steps, which C91_atomic justifies) |
| GraphPipeline/GPipelineManager.cpp, _GSchedule/* | PmModel, PipeModel, ShareModel (several pipelines on one pool) |
| GraphPipeline/_GPerf/*, _GStroage/* | PerfModel, StoreModel |
| UtilsCtrl/ThreadPool/* | PoolModel (queues, threads, dispatch, monitor, life cycle), StopHbModel and WatchModel (stopping and watching a pool at the level of the memory model), TGroupModel (task groups), SyncModel (spin lock, semaphore, lock-free ring) |
| UtilsCtrl/Lru, Container | ContModel |
| UtilsCtrl/Reflection/* | ReflModel |
| UtilsCtrl/Singleton/USingleton.h | SingleModel (lazy creation) |
| UtilsCtrl/Random/* | RandModel |

Not modelled: UTimeCounter, descriptions
and logging (CDescInfo, CGRAPH_ECHO), CPU affinity and scheduling policies of threads, the C API headers that only include
others, compile-time checks (static_assert, SFINAE), and the bindings outside src/.
