{"id": "C01", "title": "Status accumulation keeps the first error", "statement": "Folding any sequence of CStatus values into a status with += yields exactly the first negative-code (error) status of the sequence, with its code and message, or the initial status when the sequence holds no error; += is associative, adding a non-error status changes nothing, no error is ever lost, and positive (warning) codes never replace an OK status.", "quantifier": "every initial status and every finite sequence of statuses (any integer code, any message)", "why_tests_cant": "sequences of any length and any mix of codes; a test samples a few codes", "anchors": ["src/CBasic/CStatus.h: CStatus::operator+=, isOK, isErr, isCrash, operator=, setStatus"]}
{"id": "C02", "title": "Dependency edges stay symmetric, irreflexive and duplicate free", "statement": "After any history of dependency insertions (successful or failing half way) and trim-style removals, A lists B as a dependency iff B lists A as a successor, no element depends on itself, no edge is stored twice; a removal removes exactly the requested edge; a failing insertion adds no edge that was not requested.", "quantifier": "every finite history of addDependGElements/removeDepend calls over any set of elements with any group assignment", "why_tests_cant": "the histories are unbounded and include calls that fail in the middle of the set", "anchors": ["src/GraphCtrl/GraphElement/GElement.cpp: GElement::addDependGElements, GElement::removeDepend, GElement::getRelation", "src/UtilsCtrl/Container/USmallVector.h: USmallVector::insert, remove"]}
{"id": "C03", "title": "init accepts a dependency graph exactly when it is acyclic", "statement": "For each of the three engines, setting the engine up on a set of elements with closed symmetric dependencies succeeds if and only if the dependency relation has no cycle; the order/layering it computes contains every element exactly once and puts each element strictly after all its dependencies.", "quantifier": "every finite dependency graph", "why_tests_cant": "the graphs are unbounded; no finite sample shows that every cyclic graph is rejected and no acyclic one is", "anchors": ["src/GraphCtrl/GraphElement/_GEngine/GEngine.h: GEngine::getTopo, isDag", "src/GraphCtrl/GraphElement/_GEngine/GStaticEngine/GStaticEngine.cpp: GStaticEngine::setup", "src/GraphCtrl/GraphElement/_GEngine/GTopoEngine/GTopoEngine.cpp: GTopoEngine::setup", "src/GraphCtrl/GraphElement/_GEngine/GDynamicEngine/GDynamicEngine.cpp: GDynamicEngine::setup"]}
{"id": "C04", "title": "Topological engine runs every element once, in dependency order, until the first failure", "statement": "For any DAG and any results returned by the elements, the topological engine invokes elements one by one, each at most once and only after all of its dependencies returned without error; without failures every element is invoked exactly once and the result is OK; with a failure the failing element is the last one invoked and its status is the result.", "quantifier": "every DAG and every assignment of results to elements", "why_tests_cant": "unbounded graphs and failure positions", "anchors": ["src/GraphCtrl/GraphElement/_GEngine/GTopoEngine/GTopoEngine.cpp: GTopoEngine::setup, run", "src/GraphCtrl/GraphElement/_GEngine/GEngine.h: getTopo"]}
{"id": "C05", "title": "Static engine separates dependent elements by a barrier", "statement": "For any DAG and any schedule of the thread pool inside each layer, the static engine starts an element only after all its dependencies have finished without error; each element is started at most once; if nothing fails all elements run exactly once; if an element fails no element of a later layer starts and the result is an error returned by an element of that layer.", "quantifier": "every DAG, every assignment of results, every interleaving of the elements of a layer", "why_tests_cant": "the interleavings of a layer are exponential and scheduler dependent", "anchors": ["src/GraphCtrl/GraphElement/_GEngine/GStaticEngine/GStaticEngine.cpp: GStaticEngine::setup, run"]}
{"id": "C06", "title": "Dynamic engine: an element starts only after all its dependencies finished", "statement": "In every execution of the dynamic engine on a DAG with any number of worker threads, whenever an element starts, all of its dependencies have already finished without error in the same run, and no element is ever started twice in one run (run being called again after a failed run only once the thread pool is idle).", "quantifier": "every DAG, every assignment of results, every interleaving of the atomic steps of all threads", "why_tests_cant": "depends on the schedule; the interleavings cannot be enumerated by tests", "anchors": ["src/GraphCtrl/GraphElement/_GEngine/GDynamicEngine/GDynamicEngine.cpp: commonRunAll, process, innerExec, afterElementRun", "src/GraphCtrl/GraphElement/_GEngine/GEngine.h: calcShape"]}
{"id": "C07", "title": "Dynamic engine: a run that returns OK has executed every element exactly once", "statement": "In every execution in which run returns an OK status, every element of the DAG was started exactly once and finished before run returned; and the dependency counters are back to their initial values so the next run starts from the same state (run being called again after a failed run only once the thread pool is idle).", "quantifier": "every DAG, every interleaving, every number of successive runs", "why_tests_cant": "depends on the schedule; a lost or duplicated execution shows only under rare interleavings", "anchors": ["src/GraphCtrl/GraphElement/_GEngine/GDynamicEngine/GDynamicEngine.cpp: afterElementRun, fatWait, prepareRun", "src/GraphCtrl/GraphElement/GElement.cpp: GElement::refresh"]}
{"id": "C08", "title": "Dynamic engine: without errors a run always terminates", "statement": "If no element reports an error then in every reachable state of a dynamic-engine run that has not returned, some thread has an enabled step, and every execution has a bounded number of steps, so run returns.", "quantifier": "every DAG, every interleaving", "why_tests_cant": "absence of deadlock over all schedules cannot be tested", "anchors": ["src/GraphCtrl/GraphElement/_GEngine/GDynamicEngine/GDynamicEngine.cpp: commonRunAll, afterElementRun, fatWait"]}
{"id": "C09", "title": "Dynamic engine: an error is reported and stops what depends on it", "statement": "If some element reports an error and run returns, the returned status is an error that some element reported in this run; an OK result means no element failed; and no element depending, directly or transitively, on a failed element is started in that run.", "quantifier": "every DAG, every assignment of results, every interleaving, including the point between testing the wait condition and going to sleep", "why_tests_cant": "the notification race window is a few instructions wide", "anchors": ["src/GraphCtrl/GraphElement/_GEngine/GDynamicEngine/GDynamicEngine.cpp: innerExec, fatWait, prepareRun"]}
{"id": "C10", "title": "Dynamic engine fast paths are sound", "statement": "The all-serial path is chosen only if the elements form one chain, and it then runs them in chain order, stopping at the first failure; the all-parallel path is chosen only if there is no dependency at all, and its task matrix contains every element exactly once, in rows no longer than ceil(n/threads), and at most `threads` rows; all shapes assigned to elements are the ones their successor counts justify.", "quantifier": "every DAG and every positive thread number", "why_tests_cant": "unbounded graphs and thread numbers", "anchors": ["src/GraphCtrl/GraphElement/_GEngine/GDynamicEngine/GDynamicEngine.cpp: mark, analysisDagType, analysisParallelMatrix, parallelRunAll, serialRunAll", "src/GraphCtrl/GraphElement/_GEngine/GEngine.h: calcShape"]}
{"id": "C11", "title": "trim removes exactly the redundant dependencies", "statement": "On any acyclic set of elements trim keeps the reachability relation unchanged, removes every dependency that is implied by other dependencies, removes nothing else, and returns the number of removed dependencies.", "quantifier": "every finite DAG", "why_tests_cant": "all graphs of all sizes; preservation of reachability is a statement about all paths", "anchors": ["src/GraphCtrl/GraphElement/_GOptimizer/GTrimOptimizer.h: GTrimOptimizer::trim", "src/GraphCtrl/GraphElement/_GOptimizer/GOptimizer.h: collect, collectPaths, buildGraph", "src/GraphCtrl/GraphPipeline/GPipeline.cpp: GPipeline::trim"]}
{"id": "C12", "title": "getMaxPara returns the exact maximal parallelism", "statement": "For any DAG of plain elements getMaxPara returns the size of a largest set of elements no two of which are connected by a dependency path; if a group is present it refuses instead of returning a number.", "quantifier": "every finite DAG", "why_tests_cant": "the value is a maximum over all antichains; tests check a few graphs", "anchors": ["src/GraphCtrl/GraphElement/_GOptimizer/GMaxParaOptimizer.h: getMaxParaSize, calcMaxCliqueSize, enumMaxClique, buildGraph", "src/GraphCtrl/GraphPipeline/GPipeline.cpp: GPipeline::getMaxPara"]}
{"id": "C13", "title": "checkSeparate answers true only for elements ordered by dependencies", "statement": "Asking whether two elements of the same level are separate returns true iff a dependency path leads from one of them to the other; the answer does not depend on the order of the two arguments; hence a true answer implies they are never executed concurrently in one run.", "quantifier": "every finite DAG and every pair of its elements", "why_tests_cant": "a statement about all paths of all graphs and all schedules", "anchors": ["src/GraphCtrl/GraphElement/_GOptimizer/GSeparateOptimizer.h: checkSeparate, getNearestAncestor, getPatch", "src/GraphCtrl/GraphPipeline/GPipeline.cpp: GPipeline::checkSeparate"]}
{"id": "C14", "title": "An element runs its body exactly loop times, bracketed by aspects", "statement": "While the pipeline is not cancelled, suspended or timed out, running a visible element whose body and aspects succeed invokes, per iteration, all begin-run aspects in order, then the body (again while it asks to be held), then all finish-run aspects in order, and repeats exactly `loop` times; the first error (from an aspect or the body) stops the iteration and is returned; a begin-run error prevents the body of that iteration; an invisible element does nothing and reports OK.", "quantifier": "every loop count, every number of aspects, every behaviour (status, hold decision) of bodies and aspects", "why_tests_cant": "unbounded loop counts and all failure positions", "anchors": ["src/GraphCtrl/GraphElement/GElement.cpp: GElement::fatProcessor, doAspect", "src/GraphCtrl/GraphAspect/GAspectManager.cpp: GAspectManager::reflect"]}
{"id": "C15", "title": "Exceptions inside an element never escape it; they become a crash status", "statement": "Whatever CGraph exceptions (CException) init, prepareRun, run, destroy, checkRunResult or the aspects of an element throw, and whatever statuses they report, processing the element returns a status and never throws, provided the crash handler aspects themselves do not throw; such an exception (or a crash-coded status of prepareRun or a begin aspect, or an error of checkRunResult) yields a status with the crash code, and every enter-crashed aspect is called exactly once, in order; otherwise none is called. Exceptions of other types are C54.", "quantifier": "every behaviour of the user callbacks", "why_tests_cant": "every throw position", "anchors": ["src/GraphCtrl/GraphElement/GElement.cpp: GElement::fatProcessor (try/catch)", "src/UtilsCtrl/UtilsDefine.h: CGRAPH_FUNCTION_CHECK_STATUS"]}
{"id": "C16", "title": "An element crash is reported by pipeline run as a status, whatever the engine", "statement": "If an element crashes during run, GPipeline::run returns a crash status (does not throw) and still performs the end-of-run actions (waiting for held elements, resetting parameters and events), for every engine type.", "quantifier": "every engine type, DAG and crash position", "why_tests_cant": "the engines differ in code paths; needs every engine times every crash position", "anchors": ["src/GraphCtrl/GraphElement/_GEngine/GTopoEngine/GTopoEngine.cpp: run", "src/GraphCtrl/GraphElement/_GEngine/GStaticEngine/GStaticEngine.cpp: run", "src/GraphCtrl/GraphPipeline/GPipeline.cpp: GPipeline::run", "src/UtilsCtrl/UtilsDefine.h: CGRAPH_FUNCTION_CHECK_STATUS"]}
{"id": "C17", "title": "prepareRun succeeds at most once per initialization, and before the first body execution", "statement": "In every history of init/run/destroy calls on an element, prepareRun is not invoked again after it succeeded until the next init (after a failure it is retried), and whenever the body is executed prepareRun was invoked, successfully, since the last init.", "quantifier": "every finite history of lifecycle calls and every callback behaviour", "why_tests_cant": "unbounded histories", "anchors": ["src/GraphCtrl/GraphElement/GElement.cpp: GElement::fatProcessor (is_prepared_)"]}
{"id": "C18", "title": "loop and timeout stay mutually exclusive", "statement": "After any sequence of setLoop/setTimeout calls (accepted or rejected), an element never has a positive timeout together with a loop count above one, a rejected call changes nothing, the timeout is never negative, and once initialized the values no longer change.", "quantifier": "every finite sequence of setter calls with any arguments", "why_tests_cant": "unbounded call sequences", "anchors": ["src/GraphCtrl/GraphElement/GElement.cpp: GElement::setLoop, setTimeout, checkSuitable"]}
{"id": "C19", "title": "Cluster runs its children sequentially in insertion order until the first error", "statement": "A cluster run invokes its children one after another in insertion order, stops right after the first child that reports an error and returns that error, otherwise returns OK after the last child.", "quantifier": "every list of children and every assignment of results", "why_tests_cant": "unbounded number of children and failure positions", "anchors": ["src/GraphCtrl/GraphElement/GGroup/GCluster/GCluster.cpp: GCluster::run"]}
{"id": "C20", "title": "Condition runs exactly the chosen child", "statement": "A condition whose choice is k runs exactly the k-th child when k is a valid index, exactly the last child when k is -1 and there is at least one child, and no child otherwise (reporting OK); it returns the status of the child it ran.", "quantifier": "every number of children and every integer choice", "why_tests_cant": "every integer choice and child count", "anchors": ["src/GraphCtrl/GraphElement/GGroup/GCondition/GCondition.cpp: GCondition::run"]}
{"id": "C21", "title": "Multi-condition runs exactly the matching children", "statement": "A serial multi-condition runs the matching children in insertion order until the first error; a parallel one starts every matching child exactly once under any schedule, waits for all of them and returns an error iff one of them reported an error; non-matching children never run.", "quantifier": "every list of children, every match predicate, every assignment of results, every interleaving", "why_tests_cant": "unbounded children and schedules", "anchors": ["src/GraphCtrl/GraphElement/GGroup/GCondition/GMultiCondition.inl: serialRun, parallelRun"]}
{"id": "C22", "title": "Some-group returns after the trigger number of children finished", "statement": "A some-group with trigger number n returns OK only after at least n of its children finished without error, returns an error if a child that finished before that point failed, rejects n larger than the number of children, and never blocks once n children finished.", "quantifier": "every number of children, trigger number, assignment of results and interleaving", "why_tests_cant": "depends on the order in which children finish", "anchors": ["src/GraphCtrl/GraphElement/GGroup/GSome/GSome.cpp: GSome::run, checkSuitable", "src/GraphCtrl/GraphElement/GGroup/GSome/GSome.inl"]}
{"id": "C23", "title": "Re-running a some-group runs its children again", "statement": "Whenever a some-group is executed again (next pipeline run, or next iteration of an enclosing loop), its children are executed again.", "quantifier": "every history of executions", "why_tests_cant": "histories are unbounded", "anchors": ["src/GraphCtrl/GraphElement/GGroup/GSome/GSome.cpp: GSome::run", "src/GraphCtrl/GraphElement/GElementRepository.cpp: reset"]}
{"id": "C24", "title": "Pipeline lifecycle calls are accepted only in the right state", "statement": "For every history of API calls on a pipeline, run/asyncRun/destroy succeed only between a successful init and the next destroy, registration and configuration calls are refused exactly in that interval, refused calls leave the pipeline unchanged, and process(n) is init, up to n runs stopping at the first failure or cancellation, then destroy.", "quantifier": "every finite history of API calls and every result of the user callbacks", "why_tests_cant": "unbounded histories", "anchors": ["src/GraphCtrl/GraphPipeline/GPipeline.cpp: init, run, destroy, process, registerGNode, setGEngineType, setSharedThreadPool, setUniqueThreadPoolConfig"]}
{"id": "C25", "title": "A pipeline whose init failed can be destroyed and initialised again", "statement": "After a failed init the pipeline can be brought back: destroy or a second init (with the cause of the failure gone) succeeds.", "quantifier": "every failure position inside init", "why_tests_cant": "every failure position of every callback", "anchors": ["src/GraphCtrl/GraphPipeline/GPipeline.cpp: init, destroy", "src/GraphCtrl/GraphElement/GElementManager.cpp: init", "src/GraphCtrl/GraphElement/GElementRepository.cpp: setThreadPool, init"]}
{"id": "C26", "title": "Parameters behave as a typed map", "statement": "For any history of create/get/remove calls: get with the key and exact type of a live parameter returns that very object, get with another type or unknown key returns null, creating an existing key succeeds only with the same type and then keeps the stored object, remove makes the key unknown, and operations on one key do not affect others.", "quantifier": "every finite history of parameter operations over any keys and types", "why_tests_cant": "unbounded histories", "anchors": ["src/GraphCtrl/GraphParam/GParamManager.inl: create, get", "src/GraphCtrl/GraphParam/GParamManager.cpp: removeByKey, clear"]}
{"id": "C27", "title": "Every run sets up all parameters before and resets them after the elements", "statement": "Every accepted run first calls setup of every parameter, once and in order, before any element runs. If one fails, no element runs and the first error is the result of run. Otherwise, once the elements have run (and unless the engine throws, C16), reset is called once for every parameter, including those created during the run, with the very status that run returns.", "quantifier": "every set of parameters, every run result", "why_tests_cant": "every number of parameters and failure positions", "anchors": ["src/GraphCtrl/GraphPipeline/GPipeline.cpp: run", "src/GraphCtrl/GraphParam/GParamManager.cpp: setup, reset"]}
{"id": "C28", "title": "Asynchronous events finish when their wait strategy says so", "statement": "Every accepted notification triggers its event exactly once (a synchronous one before it returns), unless the pool of the pipeline is deleted before; one sent with the run-finish strategy before the elements of a run ended has been executed when that run returns, and the run waits for nothing else; notifications of unknown events report an error and trigger nothing.", "quantifier": "every history of notifications and every interleaving of the pool", "why_tests_cant": "depends on the schedule", "anchors": ["src/GraphCtrl/GraphEvent/GEvent.cpp: process, asyncProcess, asyncWait, fatDestroy", "src/GraphCtrl/GraphEvent/GEventManager.cpp: trigger, asyncTrigger, reset"]}
{"id": "C29", "title": "The message ring buffer is a bounded FIFO queue", "statement": "For every history of push and pop operations on a ring buffer of capacity c, pops return the pushed messages in order, without loss or duplication except that a push on a full buffer replaces the oldest message (REPLACE), drops the new one (DROP), or waits (WAIT); the buffer holds at most c-1 messages, pop on an empty buffer times out, and the indices never leave the buffer.", "quantifier": "every capacity of at least two, every finite history of operations with any strategies", "why_tests_cant": "unbounded histories, index wrap-around", "anchors": ["src/UtilsCtrl/ThreadPool/Queue/UAtomicRingBufferQueue.h: push, waitPopWithTimeout, isFull, isEmpty"]}
{"id": "C30", "title": "Send/receive topics are isolated typed FIFO channels", "statement": "For every history of createTopic/removeTopic/sendTopicValue/recvTopicValue/clear, every call on a topic answers as a bounded queue of its size does: a receive returns the oldest unreceived value sent to that topic since its creation or times out, an unknown topic is refused, re-creating a topic is accepted exactly for the same type and size; operations on one topic never affect another or the publish/subscribe topics.", "quantifier": "every finite history of topic operations", "why_tests_cant": "unbounded histories over many topics", "anchors": ["src/GraphCtrl/GraphMessage/GMessageManager.h: createTopic, removeTopic, recvTopicValue, sendTopicValue, clear"]}
{"id": "C31", "title": "Published messages reach every bound subscriber and connections stay valid", "statement": "A published value is delivered once to every connection bound to the topic and still attached, connection ids are unique, a detached connection receives nothing more and is never touched again, and after dropTopic its connections are refused.", "quantifier": "every finite history of bind/detach/pub/sub/drop/clear calls", "why_tests_cant": "use-after-free appears only in specific histories", "anchors": ["src/GraphCtrl/GraphMessage/GMessageManager.h: bindTopic, detachConnId, pubTopicValue, subTopicValue, dropTopic, clear"]}
{"id": "C32", "title": "A stage is a barrier for its threshold", "statement": "Threads entering a stage leave only after threshold threads of their round have entered, and the launch callback runs exactly once per threshold entries.", "quantifier": "every threshold, number of threads, number of rounds and interleaving", "why_tests_cant": "a lost round shows only under one interleaving", "anchors": ["src/GraphCtrl/GraphStage/GStage.cpp: GStage::waiting"]}
{"id": "C33", "title": "Pipeline manager hands out each pipeline to one user at a time", "statement": "For every history of add/remove/fetch/release calls with distinct pipelines, fetch never returns a pipeline that was fetched and not released, released pipelines become available again, and no pipeline is lost or duplicated.", "quantifier": "every finite history of calls", "why_tests_cant": "unbounded histories", "anchors": ["src/GraphCtrl/GraphPipeline/GPipelineManager.cpp: add, remove, fetch, release, getSize"]}
{"id": "C34", "title": "Cancel stops a run early without error and does not poison later runs", "statement": "After cancel during a run no further element body starts once each running iteration ends, run returns OK if nothing failed, and the next run executes normally.", "quantifier": "every cancellation point and interleaving", "why_tests_cant": "every cancellation point of every schedule", "anchors": ["src/GraphCtrl/GraphPipeline/GPipeline.cpp: cancel, run, process", "src/GraphCtrl/GraphElement/GElementRepository.cpp: pushAllState, setup", "src/GraphCtrl/GraphElement/GElement.cpp: fatProcessor"]}
{"id": "C35", "title": "Suspend followed by resume loses no work", "statement": "A run during which suspend and later resume are called executes every element exactly as often as an undisturbed run, and always terminates after resume.", "quantifier": "every pair of suspension/resume points and every interleaving", "why_tests_cant": "every suspension point of every schedule", "anchors": ["src/GraphCtrl/GraphPipeline/GPipeline.cpp: suspend, resume", "src/GraphCtrl/GraphElement/GElementRepository.cpp: pushAllState", "src/GraphCtrl/GraphElement/GElement.cpp: checkSuspend, fatProcessor"]}
{"id": "C36", "title": "Timeout strategies", "statement": "An element with a timeout that does not finish in time makes run fail under AS_ERROR, and lets the pipeline continue under HOLD_BY_PIPELINE and NO_HOLD; under HOLD_BY_PIPELINE the pipeline run returns only after that element finished and its late error is part of the run result; in time elements behave as without timeout; the element is runnable again in the next run.", "quantifier": "every strategy, finishing order and result", "why_tests_cant": "depends on timing", "anchors": ["src/GraphCtrl/GraphElement/GElement.cpp: asyncRun, getAsyncResult, isTimeout", "src/GraphCtrl/GraphElement/GElementRepository.cpp: reset"]}
{"id": "C37", "title": "Performance analysis reports the run and leaves the pipeline as it was", "statement": "If the run made by perf succeeds, and no body adds an aspect during it, perf reports for each element, also those inside groups, how many iterations it finished, the sum of their durations, when the first one began and when the last one finished (from the start of perf, unless the first began at that very moment); it marks exactly the elements of one path, from an element without dependencies to one on which none depends, such that no chain of dependencies of the pipeline has a larger total duration; and when it returns, every element has the aspects it had before, in the same order.", "quantifier": "every acyclic pipeline, every run of it (any number of iterations of any element, any interleaving, any durations), every set of aspects present before", "why_tests_cant": "every graph and failure position", "anchors": ["src/GraphCtrl/GraphPipeline/_GPerf/GPerf.cpp: perf, inject, markLongestPath, recover"]}
{"id": "C38", "title": "Binary reflection round trip", "statement": "For every structure type built from fixed-size fields, strings, vectors and nested structures (elements of vectors occupying at least one byte) and every value of it, reading the bytes written for the value into a fresh object gives the same value, consumes exactly the bytes written, and the announced size equals the number of bytes written.", "quantifier": "every schema and every value (any string length, any nesting depth) whose total size fits the length field", "why_tests_cant": "values are unbounded in size and depth", "anchors": ["src/UtilsCtrl/Reflection/UReflectionType.h: reflGetSize, reflWrite, reflRead", "src/UtilsCtrl/Reflection/UReflectionSession.h"]}
{"id": "C39", "title": "Saving and loading a pipeline reproduces it", "statement": "load of a file produced by save yields a pipeline with the same elements, settings, groups, dependencies, events, parameters, daemons, stages and pool configuration, provided all types are registered.", "quantifier": "every pipeline", "why_tests_cant": "every pipeline shape and setting", "anchors": ["src/GraphCtrl/GraphPipeline/_GStroage/GStorage.cpp: save, load, loadElement, loadParam", "src/GraphCtrl/GraphPipeline/_GStroage/GStorageDefine.h"]}
{"id": "C40", "title": "Thread pool executes each accepted task exactly once", "statement": "In every interleaving of producers, primary threads (own pop, steal, pool pop, single or batch), secondary threads and waking, each task handed to the pool is executed at most once, and while the pool is not destroyed no task is lost: it is executed, in the hands of one thread, or still waiting in one queue or call. Apart from a thread number of zero, tasks given to a pool that is not initialised, and misuse of batch locking, no call is undefined.", "quantifier": "every number of threads and tasks, every configuration and interleaving", "why_tests_cant": "duplicated or lost tasks show only in rare interleavings", "anchors": ["src/UtilsCtrl/ThreadPool/UThreadPool.inl: execute, executeWithTid, commitWithPriority", "src/UtilsCtrl/ThreadPool/UThreadPool.cpp: dispatch", "src/UtilsCtrl/ThreadPool/Thread/UThreadPrimary.h: processTask, stealTask, buildStealTargets", "src/UtilsCtrl/ThreadPool/Queue/UWorkStealingQueue.h", "src/UtilsCtrl/ThreadPool/Queue/UAtomicQueue.h"]}
{"id": "C41", "title": "Every task queue of the pool is reachable by a running thread", "statement": "A task accepted by a running pool with at least one thread is in a queue that some thread of the pool takes from, so it is eventually executed, whatever strategy index it was submitted with.", "quantifier": "every strategy index, configuration and pool state", "why_tests_cant": "configuration space times schedules", "anchors": ["src/UtilsCtrl/ThreadPool/UThreadPool.inl: execute", "src/UtilsCtrl/ThreadPool/UThreadPool.cpp: dispatch", "src/UtilsCtrl/ThreadPool/Thread/UThreadPrimary.h: buildStealTargets"]}
{"id": "C42", "title": "Task groups report completion truthfully", "statement": "submit of a task group returns OK if every task has ended by the earlier of the two deadlines, and never while a task is still running; where the waits end on time it returns OK only if every task has ended by that deadline, and it returns by then. The finish callback is called exactly once, with the returned status. On a pool that is not initialised nothing is executed, nothing is called, and an error is returned.", "quantifier": "every number of tasks and every completion time", "why_tests_cant": "depends on timing", "anchors": ["src/UtilsCtrl/ThreadPool/UThreadPool.cpp: submit", "src/UtilsCtrl/ThreadPool/Task/UTaskGroup.h"]}
{"id": "C43", "title": "Higher priority tasks are taken first", "statement": "Among tasks waiting in the priority queue, the one with the highest priority is taken first.", "quantifier": "every content of the queue", "why_tests_cant": "depends on allocation addresses", "anchors": ["src/UtilsCtrl/ThreadPool/Queue/UAtomicPriorityQueue.h: push, tryPop", "src/UtilsCtrl/ThreadPool/Task/UTask.h: operator<"]}
{"id": "C44", "title": "The pool never exceeds its maximal thread number", "statement": "After any history of creations and releases of secondary threads the number of primary plus secondary threads is at most the configured maximum.", "quantifier": "every history and interleaving of createSecondaryThread/releaseSecondaryThread/monitor", "why_tests_cant": "race between the size check and the lock", "anchors": ["src/UtilsCtrl/ThreadPool/UThreadPool.cpp: createSecondaryThread, releaseSecondaryThread, monitor"]}
{"id": "C45", "title": "LRU cache semantics", "statement": "For every history of put/get/clear on a cache of capacity c>=1, a get hits iff the key is among the c most recently used distinct keys since the last clear, a hit returns the last value put for the key, and the cache never holds more than c entries.", "quantifier": "every capacity, every finite history", "why_tests_cant": "unbounded histories", "anchors": ["src/UtilsCtrl/Lru/ULru.h: put, get, clear"]}
{"id": "C46", "title": "Small vector behaves as a list", "statement": "For every history of insert (unique or not, of values from outside the vector), remove and clear, the small vector represents the list obtained by the same operations on a mathematical list, and never accesses memory outside its allocation.", "quantifier": "every finite history, every growth step", "why_tests_cant": "unbounded histories", "anchors": ["src/UtilsCtrl/Container/USmallVector.h: insert, remove, clear, hasValue, asVector"]}
{"id": "C47", "title": "Periodic daemon timing and stop", "statement": "The interval until the next shot is the requested one less the time the last shot took (the whole one if it took longer), or the one modify asked for, which applies to the next shot only; once stop was called no further shot begins; stop ends, and when it has returned no shot is in progress.", "quantifier": "every interval, task duration and interleaving of stop with the timer loop", "why_tests_cant": "depends on timing", "anchors": ["src/UtilsCtrl/Timer/UTimer.h: start, stop", "src/GraphCtrl/GraphDaemon/GDaemon.cpp"]}
{"id": "C48", "title": "A singleton element is initialised once and destroyed once", "statement": "However many elements and pipelines share a singleton, its init runs once before any run and its destroy only after the last user is destroyed.", "quantifier": "every history of init/run/destroy of all sharing elements", "why_tests_cant": "unbounded histories across pipelines", "anchors": ["src/GraphCtrl/GraphElement/GAdapter/GSingleton/GSingleton.inl: init, run, destroy"]}
{"id": "C49", "title": "makeSerial guarantees a run without pool threads", "statement": "If makeSerial succeeds, running the pipeline executes all elements in dependency order on the calling thread and never hands work to the (empty) pool.", "quantifier": "every pipeline for which makeSerial succeeds", "why_tests_cant": "all pipelines", "anchors": ["src/GraphCtrl/GraphPipeline/GPipeline.cpp: makeSerial", "src/GraphCtrl/GraphElement/GElementManager.cpp: checkSerializable", "src/GraphCtrl/GraphElement/GGroup/GGroup.cpp: isSerializable"]}
{"id": "C50", "title": "Trace arrays are duplicate free in first-occurrence order", "statement": "The trace of a parameter lists each user of the parameter once, in the order of first use.", "quantifier": "every sequence of accesses", "why_tests_cant": "unbounded sequences", "anchors": ["src/UtilsCtrl/Container/USerialUniqueArray.h: uniqueAdd", "src/GraphCtrl/GraphParam/GParam.cpp: addBacktrace, getBacktrace"]}
{"id": "C51", "title": "Dynamic engine: a run in which an element fails still returns", "statement": "After an element reports an error, run always returns: the caller never sleeps for ever.", "quantifier": "every DAG, every interleaving, including the point between testing the wait condition and going to sleep", "why_tests_cant": "the notification race window is a few instructions wide", "anchors": ["src/GraphCtrl/GraphElement/_GEngine/GDynamicEngine/GDynamicEngine.cpp: innerExec, fatWait"]}
{"id": "C52", "title": "Copying and assigning a status preserves it", "statement": "A status reports the code and the message it was given when it was built or set; OK has no message. Copying or assigning a status yields a status with the same code and the same message.", "quantifier": "every pair of source and target statuses", "why_tests_cant": "all pairs of codes and messages", "anchors": ["src/CBasic/CStatus.h: CStatus constructors, operator=, setInfo, setErrorInfo, reset, isOK, isErr, isNotErr"]}
{"id": "C53", "title": "Dependencies join elements of one parent", "statement": "After any history of insertions, removals and groupings every dependency edge joins two elements with the same parent, so that every group can be scheduled on its own.", "quantifier": "every finite history of dependency and grouping calls", "why_tests_cant": "histories are unbounded", "anchors": ["src/GraphCtrl/GraphElement/GElement.cpp: GElement::addDependGElements, addElementInfo", "src/GraphCtrl/GraphElement/GGroup/GGroup.cpp: addElement"]}
{"id": "C54", "title": "No exception of any type thrown by user code escapes an element", "statement": "Whatever exception, of whatever C++ type, a callback of an element throws, processing the element returns a crash status instead of letting the exception propagate into the engine or a worker thread.", "quantifier": "every behaviour of the user callbacks, with exceptions of every type", "why_tests_cant": "every throw position and type", "anchors": ["src/GraphCtrl/GraphElement/GElement.cpp: GElement::fatProcessor (catch (const CException&))", "src/CBasic/CException.h"]}
{"id": "C55", "title": "An execution of a some-group is independent of earlier ones", "statement": "What one execution of a some-group returns is determined by its own children runs: children of an earlier execution that were still queued or running neither count for it nor execute after the pipeline run they belong to has returned.", "quantifier": "every history of executions and every interleaving of left-over children", "why_tests_cant": "needs a child that outlives the run that started it at one particular moment", "anchors": ["src/GraphCtrl/GraphElement/GGroup/GSome/GSome.cpp: run", "src/GraphCtrl/GraphElement/GElementRepository.cpp: reset"]}
{"id": "C56", "title": "init and destroy reach every node exactly once and in order", "statement": "A successful pipeline init checks every element, initialises all parameters, then all events, then every node of the pipeline, nested ones included, exactly once and in registration order, then all daemons; a successful destroy destroys events, daemons, every node exactly once, then parameters.", "quantifier": "every tree of nested groups and every set of parameters, events and daemons", "why_tests_cant": "unbounded nesting and sizes", "anchors": ["src/GraphCtrl/GraphPipeline/GPipeline.cpp: init, destroy", "src/GraphCtrl/GraphElement/GElementManager.cpp: init, destroy", "src/GraphCtrl/GraphElement/GGroup/GGroup.cpp: init, destroy"]}
{"id": "C57", "title": "A pipeline that accepts run has a thread pool", "statement": "In every history of API calls, whenever run is accepted by a pipeline with a pool of its own, that pool exists.", "quantifier": "every history and every result of the callbacks", "why_tests_cant": "every failure position of every callback in unbounded histories", "anchors": ["src/GraphCtrl/GraphPipeline/GPipeline.cpp: destroy", "src/GraphCtrl/GraphPipeline/_GSchedule/GSchedule.cpp: destroy, makeType"]}
{"id": "C58", "title": "Failing init and destroy report a status and leave nothing running", "statement": "Pipeline init and destroy never throw: every failure of a callback is reported as an error status; and after a failed init no daemon is running.", "quantifier": "every result of every callback, including crashes", "why_tests_cant": "every failure position of every callback", "anchors": ["src/GraphCtrl/GraphPipeline/GPipeline.cpp: init, destroy", "src/GraphCtrl/GraphElement/GElementManager.cpp: init, destroy", "src/UtilsCtrl/UtilsDefine.h: CGRAPH_FUNCTION_CHECK_STATUS"]}
{"id": "C59", "title": "A small vector accepts its own elements", "statement": "Inserting an element of the vector into the vector itself appends a copy of it, whatever the size of the vector.", "quantifier": "every history of operations and every element of the vector", "why_tests_cant": "fails only at the sizes where the storage grows, and then reads freed memory, which tests do not observe", "anchors": ["src/UtilsCtrl/Container/USmallVector.h: insert"]}
{"id": "C60", "title": "Asking an element for the parameters it used is always safe", "statement": "After any history of parameter creations, uses and removals, getConcernedGParamKeys lists exactly the keys of the parameters the element obtained in its current round, each once.", "quantifier": "every history of create, get, remove and rounds of any elements", "why_tests_cant": "reading a removed parameter is undefined behaviour that tests need not observe", "anchors": ["src/GraphCtrl/GraphParam/GParamManagerWrapper.h: getGParam, getConcernedGParamKeys", "src/GraphCtrl/GraphParam/GParamManager.cpp: removeByKey", "src/GraphCtrl/GraphElement/GElement.cpp: fatProcessor"]}
{"id": "C61", "title": "A message buffer of size n holds n messages", "statement": "A topic or connection created with size n keeps n unread messages before a push waits, drops or replaces.", "quantifier": "every size, every history", "why_tests_cant": "every size and every fill level", "anchors": ["src/UtilsCtrl/ThreadPool/Queue/UAtomicRingBufferQueue.h: isFull, push, setCapacity", "src/GraphCtrl/GraphMessage/GMessage.h"]}
{"id": "C62", "title": "Senders and receivers never wait in vain", "statement": "Whatever number of threads send to and receive from one topic: once no thread is about to move, a receiver waits only if no message is stored and a sender waits only if the buffer is full.", "quantifier": "every number of threads, every interleaving of pushes, pops, notifications, spurious wake-ups and timeouts", "why_tests_cant": "a lost notification needs one particular interleaving", "anchors": ["src/UtilsCtrl/ThreadPool/Queue/UAtomicRingBufferQueue.h: push, waitPopWithTimeout"]}
{"id": "C63", "title": "A receive with the wrong type is refused", "statement": "recvTopicValue or subTopicValue with a type other than that of the value sent does not hand the value out as the wrong type.", "quantifier": "every history of topic operations, every pair of types", "why_tests_cant": "every pair of types and every history", "anchors": ["src/GraphCtrl/GraphMessage/GMessageManager.h: recvTopicValue, subTopicValue, sendTopicValue, pubTopicValue"]}
{"id": "C64", "title": "A thread whose stage round was launched leaves", "statement": "Once the threshold of its round is reached, every thread waiting in a stage leaves it, whatever the other threads do afterwards.", "quantifier": "every threshold, number of threads and interleaving", "why_tests_cant": "a lost round shows only under one interleaving", "anchors": ["src/GraphCtrl/GraphStage/GStage.cpp: GStage::waiting"]}
{"id": "C65", "title": "Creating a stage takes effect or is refused", "statement": "createGStage answers OK only if the stage now stored under the key is the one just described; other keys keep their stage.", "quantifier": "every key, threshold and earlier history", "why_tests_cant": "every history of creations", "anchors": ["src/GraphCtrl/GraphStage/GStageManager.h: create, __create_4py, waitForReady"]}
{"id": "C66", "title": "A pipeline added twice is not handed to two users", "statement": "However often a pipeline is added to a pipeline manager, it is handed out to one user at a time.", "quantifier": "every history of manager calls", "why_tests_cant": "needs particular histories", "anchors": ["src/GraphCtrl/GraphPipeline/GPipelineManager.cpp: add, fetch, release"]}
{"id": "C67", "title": "A failed init of a pipeline manager can be repeated", "statement": "If init of the manager fails because one pipeline failed, a later init succeeds once all pipelines can be initialised.", "quantifier": "every set of pipelines, every pattern of failures", "why_tests_cant": "every pattern of failures", "anchors": ["src/GraphCtrl/GraphPipeline/GPipelineManager.cpp: init, destroy", "src/GraphCtrl/GraphPipeline/GPipeline.cpp: init"]}
{"id": "C68", "title": "Reading into a used object gives the value written", "statement": "Reading the bytes written for a value into any object of the type gives that value, whatever the object held before.", "quantifier": "every type, every value and every former content of the object", "why_tests_cant": "depends on what the object held before", "anchors": ["src/UtilsCtrl/Reflection/UReflectionType.h: reflRead", "src/UtilsCtrl/Reflection/UReflection.h: read"]}
{"id": "C69", "title": "A truncated or foreign buffer is noticed, not misread", "statement": "Reading a buffer that is not exactly the bytes written for a value of the type (cut off, or written for a type with other field ids) reports an error and reads nothing outside the buffer.", "quantifier": "every type, every value, every cut", "why_tests_cant": "there are unboundedly many damaged files", "anchors": ["src/UtilsCtrl/Reflection/UReflectionType.h: reflRead", "src/GraphCtrl/GraphPipeline/_GStroage/GStorage.cpp: loadBuffer"]}
{"id": "C70", "title": "Tasks accepted before destroy are executed", "statement": "When destroy of the pool returns, every task accepted before has been executed.", "quantifier": "every history of submissions and every point at which destroy is called", "why_tests_cant": "the number and place of waiting tasks and the moment of destroy are unbounded", "anchors": ["src/UtilsCtrl/ThreadPool/UThreadPool.cpp: destroy, init", "src/UtilsCtrl/ThreadPool/Thread/UThreadBase.h: loopProcess"]}
{"id": "C71", "title": "Tasks given to a pool that is not initialised are refused", "statement": "Giving a task to a pool before init or after destroy reports an error, and the task is not accepted.", "quantifier": "every strategy, every history before the call", "why_tests_cant": "the histories that lead to an uninitialised pool are unbounded", "anchors": ["src/UtilsCtrl/ThreadPool/UThreadPool.inl: commit, execute, commitWithPriority", "src/UtilsCtrl/ThreadPool/UThreadPool.cpp: init, destroy"]}
{"id": "C72", "title": "A task group with a task that throws reports failure", "statement": "If a task of a group throws, submit does not return OK.", "quantifier": "every group, every number of throwing tasks", "why_tests_cant": "depends on which task throws and when", "anchors": ["src/UtilsCtrl/ThreadPool/UThreadPool.cpp: submit", "src/UtilsCtrl/ThreadPool/Task/UTaskGroup.h"]}
{"id": "C73", "title": "Stopping a timer does not wait for the interval", "statement": "stop returns without waiting for the rest of the interval, if no shot is in progress.", "quantifier": "every interval and every interleaving of stop with the timer thread", "why_tests_cant": "the window between the test and the wait is a few instructions wide", "anchors": ["src/UtilsCtrl/Timer/UTimer.h: start, stop"]}
{"id": "C74", "title": "A daemon keeps being executed", "statement": "A daemon that was started is executed again and again until it is stopped, also if one execution throws (or the failure is reported).", "quantifier": "every history of a daemon", "why_tests_cant": "unbounded histories", "anchors": ["src/UtilsCtrl/Timer/UTimer.h: start", "src/GraphCtrl/GraphDaemon/GDaemon.cpp: init"]}
{"id": "C75", "title": "The spin lock excludes", "statement": "If only holders unlock, at most one thread holds the spin lock; tryLock succeeds exactly if nobody holds it, and unlock frees it.", "quantifier": "every number of threads and every interleaving", "why_tests_cant": "unbounded interleavings", "anchors": ["src/UtilsCtrl/ThreadPool/Lock/USpinLock.h"]}
{"id": "C76", "title": "The semaphore counts signals", "statement": "wait returns only if there were at least as many signals as returned waits, and a signal lets one waiting thread go on.", "quantifier": "every history of signals and waits of any number of threads", "why_tests_cant": "unbounded interleavings", "anchors": ["src/UtilsCtrl/ThreadPool/Semaphore/USemaphore.h"]}
{"id": "C77", "title": "The lock-free ring is a bounded FIFO for one producer and one consumer", "statement": "With one producer and one consumer the values handed out are those pushed, in order, without loss or repetition; at most capacity minus one wait; tryPop fails only on an empty ring and push waits only on a full one.", "quantifier": "every capacity and every interleaving of the atomic accesses", "why_tests_cant": "unbounded interleavings", "anchors": ["src/UtilsCtrl/ThreadPool/Queue/ULockFreeRingBufferQueue.h"]}
{"id": "C78", "title": "The lock-free ring is safe for several producers and consumers", "statement": "The same holds for any number of producers and consumers.", "quantifier": "every capacity and every interleaving of the atomic accesses", "why_tests_cant": "unbounded interleavings", "anchors": ["src/UtilsCtrl/ThreadPool/Queue/ULockFreeRingBufferQueue.h"]}
{"id": "C79", "title": "Events sent with the destroy strategy are executed before destroy returns", "statement": "A notification with the destroy strategy that returned before destroy was called has been executed when destroy returns.", "quantifier": "every history of notifications and every interleaving of the pool", "why_tests_cant": "depends on how busy the pool is when destroy is called", "anchors": ["src/GraphCtrl/GraphEvent/GEvent.cpp: fatDestroy, asyncWait", "src/GraphCtrl/GraphPipeline/GPipeline.cpp: destroy", "src/GraphCtrl/GraphPipeline/_GSchedule/GSchedule.cpp: destroy"]}
{"id": "C80", "title": "No event is triggered after its pipeline was deleted", "statement": "Once the pipeline is deleted, none of its events is triggered, whatever notifications were sent before.", "quantifier": "every history that ends with destroy and deletion, every interleaving of the pool", "why_tests_cant": "use after free shows only under unlucky timing", "anchors": ["src/GraphCtrl/GraphEvent/GEvent.cpp: asyncProcess, fatDestroy", "src/GraphCtrl/GraphPipeline/GPipeline.cpp: ~GPipeline"]}
{"id": "C81", "title": "No element body outlives its run, and bodies of one element never overlap", "statement": "When run has returned no element body that it started is still being executed, so that two bodies of the same element are never executed at the same time.", "quantifier": "every timeout strategy, every finishing order and every later run", "why_tests_cant": "depends on timing across runs", "anchors": ["src/GraphCtrl/GraphElement/GElement.cpp: asyncRun", "src/GraphCtrl/GraphElement/GElementRepository.cpp: reset"]}
{"id": "C82", "title": "Performance analysis leaves nothing behind, whatever the run did", "statement": "When perf returns, with or without error, the aspects of every element are those that the user added, and none of them uses freed memory.", "quantifier": "every pipeline and every run, including runs that fail and runs in which a body adds an aspect", "why_tests_cant": "needs a failure, or an addition, in the middle of the analysed run; the damage shows in later runs", "anchors": ["src/GraphCtrl/GraphPipeline/_GPerf/GPerf.cpp: perf, inject, recover", "src/GraphCtrl/GraphElement/GElement.cpp: popLastAspect", "src/GraphCtrl/GraphElement/GElement.inl: addGAspect"]}
{"id": "C83", "title": "A singleton element works with the parameters of the pipeline that runs it", "statement": "Whenever a pipeline runs a singleton element, the parameters, events and stages the element sees are those of that pipeline.", "quantifier": "every history of registrations, inits, runs, destroys and deletions of all pipelines that share the singleton", "why_tests_cant": "unbounded histories across pipelines; tests use one pipeline", "anchors": ["src/GraphCtrl/GraphElement/GAdapter/GSingleton/GSingleton.inl: addManagers, run"]}
{"id": "C84", "title": "A lazily created object is created once", "statement": "However many threads ask for the lazily created global object (the message manager) at the same time, it is created once, every one of them gets that object, none waits for ever, and no access races with the creation.", "quantifier": "every interleaving of any number of threads", "why_tests_cant": "depends on the schedule of the first calls", "anchors": ["src/UtilsCtrl/Singleton/USingleton.h: get, create", "src/GraphCtrl/GraphMessage/GMessageManagerSingleton.h: get"]}
{"id": "C85", "title": "A mutable group follows its latest reshape", "statement": "Each execution of a mutable group runs exactly the children that this execution made visible in reshape(), each of them as often as the loop it was given there, after everything that reshape() linked before it; dependencies, visibility and loops of earlier executions have no influence, and an error that is returned is the error of a child that was made visible. If reshape() fails nothing is executed.", "quantifier": "all states left by earlier executions, all sets of children, all sequences of reshape operations on them without a cycle, all results of the children, all schedules of the engine", "why_tests_cant": "the reshape operations are user code run before every execution; a test tries a few of them in a few orders", "anchors": ["src/GraphCtrl/GraphElement/GGroup/GMutable/GMutable.cpp: GMutable::run, GMutable::setup", "src/GraphCtrl/GraphElement/GElementManager.cpp: GElementManager::process", "src/GraphCtrl/GraphElement/GElement.cpp: operator>, operator--, operator*, setVisible"]}
{"id": "C86", "title": "A reshape with a cycle is reported and executes nothing", "statement": "If reshape() of a mutable group links its children in a cycle, the execution of the group returns an error and no child is executed.", "quantifier": "all states left by earlier executions, all cyclic reshapes", "why_tests_cant": "the outcome depends on what earlier executions left in the engine; a test with a single execution always passes", "anchors": ["src/GraphCtrl/GraphElement/GElementManager.cpp: GElementManager::process", "src/GraphCtrl/GraphElement/_GEngine/GDynamicEngine/GDynamicEngine.cpp: setup, serialRunAll"]}
{"id": "C87", "title": "A fence returns only when the bodies it waits for have ended, and reports their errors", "statement": "A fence that was told to wait for some elements returns only after the latest body of each of these elements has ended, even if it outlasted its timeout; it returns an error if one of the late bodies ended with one, and then the run of the pipeline fails; if all ended well the fence returns OK. The results of the bodies are never used by two threads at once.", "quantifier": "all pipelines with timeouts and fences, all interleavings of element threads, bodies, fences and the owner, all runs of one pipeline", "why_tests_cant": "whether a body outlasts its timeout and ends before, during or after the fence depends on the schedule; data races do not show in results", "anchors": ["src/GraphCtrl/GraphElement/GAdapter/GFence/GFence.cpp", "src/GraphCtrl/GraphElement/GElement.cpp: asyncRun, getAsyncResult", "src/GraphCtrl/GraphElement/GElementRepository.cpp: reset"]}
{"id": "C88", "title": "Everything a pipeline makes is released exactly once, with the pipeline", "statement": "Whatever elements and groups are created and registered through a pipeline, accepted or refused, and however it was initialised, run and destroyed, removing the pipeline (or clearing the factory) deletes each of them exactly once; nothing is deleted before, nothing stays allocated after, and no call ever uses an element or a pipeline that has been deleted.", "quantifier": "all programs of factory, create, register, init, run, destroy, remove and clear calls, over any number of pipelines", "why_tests_cant": "ownership mistakes depend on the whole history of calls over several pipelines and do not show in return values", "anchors": ["src/GraphCtrl/GraphPipeline/GPipeline.inl: registerGElement, createGNode, createGGroup", "src/GraphCtrl/GraphPipeline/GPipeline.cpp: registerGNode, registerGGroup, innerRegister, ~GPipeline", "src/GraphCtrl/GraphPipeline/GPipelineFactory.cpp", "src/GraphCtrl/GraphElement/GElementRepository.cpp: insert, fetchAll, ~GElementRepository"]}
{"id": "C89", "title": "dump shows the pipeline as it is", "statement": "GPipeline::dump writes a well-formed graphviz text that declares every element registered in the pipeline, at any depth, exactly once and inside the block of the group it belongs to, and nothing else; its edges are exactly the dependencies, the order inside clusters and the numbered choices of conditions; labels are the names (or addresses), loops and measured times; red marks the longest path. Writing it does not change the pipeline or the formatting of the stream.", "quantifier": "all pipelines: all trees of groups of every class, names, loop counts, dependencies and measurements", "why_tests_cant": "the text depends on the shape of the whole pipeline at any depth and on arbitrary names; a test looks at a few pipelines", "anchors": ["src/GraphCtrl/GraphPipeline/GPipeline.cpp: GPipeline::dump", "src/GraphCtrl/GraphElement/GElement.cpp: dump, dumpEdge, dumpElement, dumpElementHeader, dumpPerfInfo", "src/GraphCtrl/GraphElement/GGroup/GGroup.cpp: dumpGroupLabelBegin, dumpGroupLabelEnd", "src/GraphCtrl/GraphElement/GGroup/GCluster/GCluster.cpp: dump", "src/GraphCtrl/GraphElement/GGroup/GCondition/GCondition.cpp: dump", "src/GraphCtrl/GraphElement/GGroup/GRegion/GRegion.cpp: dump", "src/GraphCtrl/GraphElement/GGroup/GSome/GSome.cpp: dump"]}
{"id": "C90", "title": "A refused registration changes nothing", "statement": "If registering an element returns an error or throws, the pipeline is what it was before the call: the same elements with the same names, loops and dependencies, and every later run behaves as if the call had not been made.", "quantifier": "all states of a pipeline, all calls, all programs of registrations, all later runs", "why_tests_cant": "what a refused call leaves behind shows only in later runs, depends on the order of pointers in a set, and on the schedule", "anchors": ["src/GraphCtrl/GraphPipeline/GPipeline.inl: registerGElement", "src/GraphCtrl/GraphPipeline/GPipeline.cpp: innerRegister, registerGNode, registerGGroup", "src/GraphCtrl/GraphElement/GElement.cpp: addElementInfo, addDependGElements, setLoop", "src/GraphCtrl/GraphElement/_GEngine/GDynamicEngine/GDynamicEngine.cpp: mark, fatWait"]}
{"id": "C91", "title": "The task queues neither lose, duplicate nor reorder tasks, whatever the interleaving", "statement": "Any number of threads push, take, steal, wait with a time limit and reset on one task queue. Every call behaves as if it took effect at one moment between its call and its return, on a plain double-ended queue: taking returns the oldest tasks, stealing the youngest, a call that reports failure changes nothing, pushes do not fail. So every task that was pushed is handed out at most once and is either handed out or still queued, and without stealing in the order of pushing. No deadlock: all calls can come to their end. No lost wake-up: nobody keeps sleeping in front of a task while every other thread is done. The accesses to the container are ordered by the mutex (no data race).", "quantifier": "every number of threads, every sequence of calls with every batch, every interleaving of the single accesses to mutex, container, flag and condition variable, every choice of the woken thread, spurious wake-ups and time limits included", "why_tests_cant": "A test sees a few interleavings on one machine; a lost wake-up or a doubly handed out task needs a particular order of single steps.", "anchors": ["src/UtilsCtrl/ThreadPool/Queue/UWorkStealingQueue.h: push, tryPush, tryPop, trySteal", "src/UtilsCtrl/ThreadPool/Queue/UAtomicQueue.h: push, tryPop, popWithTimeout, reset"]}
{"id": "C92", "title": "An aspect that was begun is finished", "statement": "In every init, run and destroy of an element each of its aspects sees begin and finish in turn: no finish without its begin, no second begin before the finish. Every begin that succeeded is followed by its finish (or, in a crash, by the notice of the crash), whatever the other aspects and the body do, so that an aspect may acquire something in begin and release it in finish.", "quantifier": "every element, every number of aspects, every loop number, every behaviour of aspects and bodies (statuses, exceptions, hold) as a function of everything that happened before", "why_tests_cant": "A test uses one order of aspects and one failure; the claim is about every combination of failing aspects, bodies and loop rounds.", "anchors": ["src/GraphCtrl/GraphAspect/GAspectManager.cpp: reflect", "src/GraphCtrl/GraphElement/GElement.cpp: fatProcessor, doAspect"]}
{"id": "C93", "title": "Coordinators change the number of secondary threads as asked", "statement": "A coordinator (or the pool calls behind it) with a positive size adds that many secondary threads, bounded by the room of the pool; with a negative size it stops that many, or reports an error and stops none. Calls made at the same time act as if one followed the other; every call returns, the program does not crash, and threads that were stopped make room for new ones.", "quantifier": "every set of callers, every sequence and interleaving of creations, releases and sweeps of the monitor, every behaviour of the tasks, every room", "why_tests_cant": "the calls race with each other, with the monitor and with the exit of the threads; the failures need a stopped thread to be still in a task or a call to come from such a thread", "anchors": ["src/GraphCtrl/GraphElement/GAdapter/GCoordinator/GCoordinator.inl: run", "src/UtilsCtrl/ThreadPool/UThreadPool.cpp: createSecondaryThread, releaseSecondaryThread, monitor", "src/UtilsCtrl/ThreadPool/UThreadPool.inl: commitWithPriority", "src/UtilsCtrl/ThreadPool/Thread/UThreadSecondary.h: freeze, loopProcess"]}
{"id": "C94", "title": "A run with nested groups ends, however few threads the pool has", "statement": "A thread of the pool that executes a region or a parallel multi-condition waits in it until all of its children are finished, and the children are given to the same pool. Whatever the nesting, the dependencies, the queues the tasks are put into and the threads that take them: the run of the pipeline never gets stuck; it ends after finitely many actions with every element executed exactly once, children inside of their group and after their dependencies.", "quantifier": "all trees of elements with acyclic dependencies, all numbers of threads and all rules which thread serves which queue, all placements of tasks, all schedules", "why_tests_cant": "a test runs a few shapes of pipelines on one machine; getting stuck needs all threads to be waiting at the same moment, which depends on the schedule and on the number of groups compared with the number of threads", "anchors": ["src/GraphCtrl/GraphElement/_GEngine/GDynamicEngine/GDynamicEngine.cpp: commonRunAll, parallelRunAll, fatWait, afterElementRun", "src/GraphCtrl/GraphElement/GGroup/GRegion/GRegion.cpp: run", "src/UtilsCtrl/ThreadPool/UThreadPool.inl: execute", "src/UtilsCtrl/ThreadPool/Thread/UThreadPrimary.h: processTask, processTasks"]}
{"id": "C95", "title": "Once a pipeline is initialised, the settings of its elements are fixed and its nodes may spawn tasks", "statement": "From a successful init() of a pipeline until destroy(), whatever is called in between, every call that changes the settings of one of its elements at any depth (name, loop, level, visibility, binding, timeout, macro, dependences, element parameters, the functions of a GFunction) is refused with an exception or an error status and changes nothing (elements directly in a GMutable may still change loop, visibility and dependences), and GNode::spawn called by a node hands the tasks to the thread pool instead of refusing them.", "quantifier": "every tree of groups, every history of calls, every answer of the callbacks", "why_tests_cant": "Trees of groups and histories of calls are unbounded; a test sees one nesting and one moment.", "anchors": ["src/GraphCtrl/GraphElement/GElement.cpp: setName, setLoop, setLevel, setVisible, setBindingIndex, setTimeout, setMacro, addDependGElements, removeDepend", "src/GraphCtrl/GraphElement/GElement.inl: addEParam", "src/GraphCtrl/GraphElement/GElementManager.cpp: init, destroy", "src/GraphCtrl/GraphElement/GGroup/GGroup.cpp: init, destroy", "src/GraphCtrl/GraphElement/GGroup/GRegion/GRegion.cpp: init", "src/GraphCtrl/GraphElement/GNode/GNode.cpp: spawn", "src/GraphCtrl/GraphElement/GAdapter/GFunction/GFunction.cpp: setFunction"]}
{"id": "C96", "title": "A checked distance calculation never reads outside its vectors", "statement": "With the checking flag of UDistanceCalculator switched on, calculating the Euclidean or cosine distance of two vectors of any lengths never reads outside them: if the lengths differ or a vector is empty, an error is returned and the result is left as it was; otherwise the status is OK.", "quantifier": "all number types, all vectors and lengths below 2^64", "why_tests_cant": "Out-of-bounds reads depend on lengths; a test that reads past the end usually still passes.", "anchors": ["src/UtilsCtrl/Distance/UDistance.inl: check", "src/UtilsCtrl/Distance/Common/UEuclideanDistance.h: calc, check", "src/UtilsCtrl/Distance/Common/UCosineDistance.h: calc", "src/UtilsCtrl/Distance/UDistanceCalculator.h: calculate"]}
{"id": "C97", "title": "A batch of distances is the list of single distances", "statement": "Calculating the distances of a query to a list of vectors returns one result per vector in the order of the list, each being the result of the single calculation (0 where that was refused), and as status the first error among them; with the checked Euclidean distance no list of vectors makes it undefined.", "quantifier": "every distance class, every query and list of vectors", "why_tests_cant": "The list is unbounded and an error may occur at any place.", "anchors": ["src/UtilsCtrl/Distance/UDistanceCalculator.h: calculate"]}
{"id": "C98", "title": "The Euclidean distance is a metric", "statement": "On vectors of equal length over the real numbers, the Euclidean distance returned is not negative, zero exactly for equal vectors, symmetric, and satisfies the triangle inequality; without the square root it is the square of that number.", "quantifier": "all real vectors of one length (exact arithmetic)", "why_tests_cant": "Infinitely many vectors.", "anchors": ["src/UtilsCtrl/Distance/Common/UEuclideanDistance.h: calc", "src/UtilsCtrl/Distance/UDistanceCalculator.h: calculate"]}
{"id": "C99", "title": "Cosine lies between -1 and 1, and normalize gives vectors of length 1", "statement": "For two vectors that are not zero the cosine distance is symmetric, lies between -1 and 1 and is 1 for a vector and itself; normalize reports OK only if the vector has become one of length 1 with the same direction.", "quantifier": "all vectors over the real numbers and the integers (exact arithmetic)", "why_tests_cant": "Infinitely many vectors.", "anchors": ["src/UtilsCtrl/Distance/Common/UCosineDistance.h: calc", "src/UtilsCtrl/Distance/UDistance.inl: normalize", "src/UtilsCtrl/Distance/UDistanceCalculator.h: normalize"]}
{"id": "C100", "title": "An ann node calls the function its prepareParam names, and no other", "statement": "When an ann node runs, prepareParam is called first; if it returns one of the eight function types exactly the function of that name is called, once, and refreshParam exactly if that succeeded; any other value, whatever it is, gives an error and nothing else is called; the first failure is the result, and no value leads to undefined behaviour.", "quantifier": "every value of the enumeration type and every behaviour of the functions", "why_tests_cant": "The underlying type admits all integers and the functions may fail or throw in any combination.", "anchors": ["src/DomainCtrl/Ann/DAnnNode.cpp: DAnnNode, run", "src/DomainCtrl/Ann/DAnnDefine.h: D_ANN_FUNC_TYPE"]}
{"id": "C101", "title": "Elements of a lower level are initialised and destroyed first", "statement": "When setLevel has given one element a lower level than another element of the same pipeline or group, a successful init of the pipeline initialises the first, with everything in it, before the second, and a successful destroy destroys it first.", "quantifier": "all programs of createGNode, createGGroup, setLevel, register calls (any number of elements, groups nested to any depth, any levels, any order), all callbacks", "why_tests_cant": "A test uses a few elements at given addresses, and elements of equal level are ordered by address, so that a wrong order may look right by chance; when the order of a set is destroyed the later behaviour is undefined and may look fine.", "anchors": ["src/GraphCtrl/GraphElement/GElementSorter.h: GElementSorter", "src/GraphCtrl/GraphElement/GElement.cpp: setLevel", "src/GraphCtrl/GraphElement/GElementManager.cpp: init, destroy, add", "src/GraphCtrl/GraphElement/GGroup/GRegion/GRegion.cpp: addElementEx", "src/GraphCtrl/GraphElement/GGroup/GGroup.cpp: init, destroy, addElement", "src/GraphCtrl/GraphPipeline/GPipeline.cpp: innerRegister"]}
{"id": "C102", "title": "process(n) is one init, n complete runs and one destroy, with any engine and any schedule", "statement": "Whatever dependency calls built the graph, whichever engine is chosen and however its threads are scheduled in each run, a call of process(n) that nobody cancels does the following and nothing else to the elements: it initialises nodes, then executes at most n rounds, then destroys nodes. In every round no element starts twice and none starts before all its dependencies have finished in that round without error; all rounds but the last are complete, i.e. every element of the pipeline starts and finishes exactly once without error. No round starts unless every node at any nesting depth has been initialised once. If process reports success there were exactly n rounds, all complete, between one init and one destroy of every node. On a cyclic graph process fails and no node is initialised, run or destroyed. Conversely, on an acyclic graph, if no call of user code reports an error, process reports success.", "quantifier": "all histories of dependency calls, all trees of elements (groups nested to any depth), the three engines and the three paths of the dynamic one, all results of the elements, all schedules of every run, all n", "why_tests_cant": "It combines the life cycle of the pipeline, the analysis of the graph and the engines; a test fixes the graph, the engine, n and whatever schedules happen, while a wrong order or a lost element may need a particular schedule in a particular round.", "anchors": ["src/GraphCtrl/GraphPipeline/GPipeline.cpp: init, run, destroy, process", "src/GraphCtrl/GraphElement/GElementManager.cpp: init, initEngine, run, destroy", "src/GraphCtrl/GraphElement/_GEngine/GTopoEngine/GTopoEngine.cpp", "src/GraphCtrl/GraphElement/_GEngine/GStaticEngine/GStaticEngine.cpp", "src/GraphCtrl/GraphElement/_GEngine/GDynamicEngine/GDynamicEngine.cpp"]}
{"id": "C103", "title": "Elements that run at the same time may create, look up, list and remove parameters", "statement": "Elements which run at the same time may call createGParam, getGParam, removeGParam and getGParamKeys freely. Every execution is equivalent to the same calls made one after the other: each call takes effect once, between its start and its return, with the answer that the earlier calls require; no call blocks for ever; and an object that was returned by getGParam may be used.", "quantifier": "all numbers of threads, all sequences of calls by each of them, all interleavings of the single accesses to the map of parameters", "why_tests_cant": "A lookup that overlaps with an insertion which rehashes the map needs a schedule a test cannot force; most runs of such a program give the expected answers.", "anchors": ["src/GraphCtrl/GraphParam/GParamManager.inl: GParamManager::create, GParamManager::get", "src/GraphCtrl/GraphParam/GParamManager.cpp: removeByKey, getKeys, __create_4py, __remove_4py, __has_4py", "src/GraphCtrl/GraphParam/GParamManagerWrapper.h: createGParam, getGParam, removeGParam"]}
{"id": "C104", "title": "Every element has one place in the pipeline", "statement": "However createGNode, createGGroup and the register calls are combined: every element is either inside of exactly one group or registered at the pipeline, or unused. The init of a pipeline therefore reaches every registered element, and every element inside of one at any depth, exactly once; getRelation tells the group an element is in, and the children of every group are the elements it was made of. A call that would give an element a second place is refused.", "quantifier": "all sequences of creating and registering calls, all nestings of groups of any depth and width, also refused calls in between", "why_tests_cant": "A test fixes a few nestings; that no sequence of accepted calls makes two places, and that the walk over the groups ends and meets every element once, is a statement about all of them.", "anchors": ["src/GraphCtrl/GraphPipeline/GPipeline.inl: registerGElement, createGNode, createGGroup", "src/GraphCtrl/GraphPipeline/GPipeline.cpp: registerGNode, registerGGroup, innerRegister, __registerGElement_4py", "src/GraphCtrl/GraphElement/GGroup/GGroup.cpp: addElement, init, addManagers, __addGElements_4py", "src/GraphCtrl/GraphElement/GElement.cpp: getRelation, getDeepPath"]}
{"id": "C105", "title": "A passed parameter is copied", "statement": "An aspect, daemon, event, stage or element that is given a parameter works with a copy of its own, made by the clone method at the time of the call: what the caller does with the object afterwards (writing it, deleting it, passing it on) is not seen, aspects that one call adds to many elements do not share anything, a null pointer leaves the parameter as it was, a parameter asked for with another type is not found, and any parameter, also the one held already, may be passed. Every copy is deleted exactly once, at the latest with the pipeline.", "quantifier": "all clone methods, all sequences of calls that make, write and delete objects, add aspects, daemons, events, stages and local parameters, read and replace their parameters, and delete the pipeline", "why_tests_cant": "Aliasing and lifetime errors show only for particular orders of passing, writing and deleting; a test sees a few of them, and a use after free may well go unnoticed.", "anchors": ["src/GraphCtrl/GraphAspect/GAspectObject.inl: setAParam, getAParam", "src/GraphCtrl/GraphDaemon/GDaemonObject.inl: setDParam", "src/GraphCtrl/GraphEvent/GEventManager.inl: createWithParam", "src/GraphCtrl/GraphStage/GStage.inl: setSParam", "src/GraphCtrl/GraphStage/GStageManager.h: create", "src/GraphCtrl/GraphElement/GElement.inl: addGAspect, addEParam, getEParam", "src/GraphCtrl/GraphPipeline/GPipeline.inl: addGAspect, addGDaemon, addGEvent, addGStage"]}
{"id": "C106", "title": "A task given to a thread stays near it", "statement": "A task that is submitted with the index of a primary thread is executed by that thread or by a primary thread that may steal from it, never by a secondary one; a task submitted with the long time strategy or with a priority is executed by a secondary thread, never by a primary one. If stealing is switched off, the task is executed by the thread it was given to, and the tasks given to a thread are executed in the order in which they were given, whatever the thread takes from the pool in between.", "quantifier": "all configurations of the pool, all interleavings of calls and thread steps, all outcomes of the try-locks, all numbers of threads that come and go", "why_tests_cant": "Which thread gets a task depends on the interleaving of all threads and on try-locks that fail by chance; a test sees a few of the schedules.", "anchors": ["src/UtilsCtrl/ThreadPool/UThreadPool.cpp: dispatch, init", "src/UtilsCtrl/ThreadPool/UThreadPool.h: commit, commitWithTid, executeWithTid, commitWithPriority", "src/UtilsCtrl/ThreadPool/UThreadPool.inl: execute, executeWithTid", "src/UtilsCtrl/ThreadPool/Thread/UThreadPrimary.h: popTask, stealTask, buildStealTargets", "src/UtilsCtrl/ThreadPool/Thread/UThreadSecondary.h: processTask"]}
{"id": "C107", "title": "An asynchronous run is a run, and does not disturb others", "statement": "asyncRun and asyncProcess give a future whose result is that of run and process, whatever the user thread does meanwhile: if the pipeline is used further before the future is asked, the calls are refused or wait, so that bodies of one element never overlap, parameters are not reset under a run, and no body starts after destroy returned. A deferred call is made when its future is asked, with the state of that time, and never if the future is dropped; dropping the future of an asynchronous call waits for it.", "quantifier": "all pipelines, all answers of the user code, all programs of calls and futures, all interleavings of the user thread and the threads of the futures", "why_tests_cant": "The outcome depends on how two threads interleave inside the library; tests ask the future at once or see only the usual interleaving.", "anchors": ["src/GraphCtrl/GraphPipeline/GPipeline.cpp: asyncRun, asyncProcess, init, run, destroy, process", "src/GraphCtrl/GraphPipeline/GPipeline.h: asyncRun, asyncProcess"]}
{"id": "C108", "title": "A bound element is executed by the thread it is bound to", "statement": "When an element has been given a binding index with setBindingIndex, its body starts in the primary thread of the pool with that index, or in one that may steal from it (with stealing switched off: in that thread); with the index of the long time strategy in a secondary thread; never in the thread that called run. This holds whatever others give to the pool. The engine and the pool do not hinder each other.", "quantifier": "all graphs, bindings, configurations of the pool, statuses returned by elements, other users of the pool, and all interleavings", "why_tests_cant": "Which thread takes a task depends on timing; tests cannot force the unlucky thief, and the answer differs from one kind of graph to the other.", "anchors": ["src/GraphCtrl/GraphElement/_GEngine/GDynamicEngine/GDynamicEngine.cpp: process, innerExec, parallelRunAll", "src/UtilsCtrl/ThreadPool/UThreadPool.inl: execute, executeWithTid", "src/GraphCtrl/GraphElement/GElement.h: setBindingIndex"]}
{"id": "C109", "title": "A run on the pool returns", "statement": "A run of a pipeline on its initialised thread pool returns, with OK and every element executed once, as long as the threads of the pool and the caller go on taking steps, no element reports an error, the pool is not being destroyed, tasks for long time threads have such a thread, and failed attempts to look into a queue, spurious wakeups and tasks given by others are finitely many. The engine and the pool cannot block each other: none of their threads that has something to do can be kept from doing it.", "quantifier": "all acyclic graphs, bindings, pool configurations, states reached by any use of the engine and the pool before, and all fair schedules after", "why_tests_cant": "Returning is a statement about all infinite schedules: a test that returns shows one, and a test that hangs shows nothing about when it will not.", "anchors": ["src/GraphCtrl/GraphElement/_GEngine/GDynamicEngine/GDynamicEngine.cpp: commonRunAll, process, afterElementRun, fatWait", "src/UtilsCtrl/ThreadPool/UThreadPool.inl: execute", "src/UtilsCtrl/ThreadPool/Thread/UThreadPrimary.h: run, processTask", "src/UtilsCtrl/ThreadPool/Thread/UThreadSecondary.h: run, processTask"]}
{"id": "C110", "title": "Runs of the static engine on the pool", "statement": "A run of a pipeline with the static engine on its thread pool: a macro without a binding index is executed by the thread that called run, every other element by a thread of the pool that its binding index permits. The run returns whatever the elements answer, as long as the threads of the pool and the caller go on taking steps: with OK and every element executed once if no element reports an error, and not with OK otherwise. When it returns no thread is inside an element and nothing of the run is left in the pool.", "quantifier": "all acyclic graphs, bindings, pool configurations, other users of the pool, statuses of elements, histories of runs before, and all fair schedules", "why_tests_cant": "Which thread takes a task, and whether the run returns, depends on the schedule of every thread of the pool and on what others put into its queues.", "anchors": ["src/GraphCtrl/GraphElement/_GEngine/GStaticEngine/GStaticEngine.cpp: run", "src/UtilsCtrl/ThreadPool/UThreadPool.inl: commit, commitWithTid, execute", "src/UtilsCtrl/ThreadPool/Thread/UThreadPrimary.h: run, processTask", "src/UtilsCtrl/ThreadPool/Thread/UThreadSecondary.h: run, processTask"]}
{"id": "C111", "title": "Runs of independent elements on the pool", "statement": "A run of a pipeline whose elements do not depend on each other, with the dynamic engine on its thread pool. The elements are cut into rows: those of a row with several elements are executed by the thread with the number of the row or one that may steal from it, an element alone in its row by a thread its binding index permits. Giving the rows to the pool never is undefined and leaves no queue locked, whoever else uses the pool. The run returns whatever the elements answer, as long as the threads of the pool and the caller go on taking steps: with OK and every element executed once if none reports an error, with the error of an element otherwise. After OK nothing of the run is left in the pool.", "quantifier": "all sets of independent elements, rows, bindings, pool configurations, other users of the pool, statuses of elements, histories of runs before, and all fair schedules", "why_tests_cant": "The calls lock queues of threads of the pool across several calls; whether a thread, the caller or another user waits for ever depends on the schedule of all of them.", "anchors": ["src/GraphCtrl/GraphElement/_GEngine/GDynamicEngine/GDynamicEngine.cpp: parallelRunAll, parallelRunOne", "src/UtilsCtrl/ThreadPool/UThreadPool.inl: executeWithTid, execute", "src/UtilsCtrl/ThreadPool/Thread/UThreadPrimary.h: pushTask, run", "src/UtilsCtrl/ThreadPool/Queue/UWorkStealingQueue.h: push"]}
{"id": "C112", "title": "What load leaves in the pipeline", "statement": "load of a stored pipeline reports success only if every class that the file names is registered and of the right kind, every dependency it names is in the file and in the same group as the element that names it, and the configuration of the pool makes sense. It then adds all of the file to the pipeline. If it does not report success, the pipeline is as it was before.", "quantifier": "all files, pipelines loaded into (new or not), and registered classes", "why_tests_cant": "There are as many ways to stop as there are classes, elements and dependencies in a file; tests try a file that was just saved and a new pipeline.", "anchors": ["src/GraphCtrl/GraphPipeline/_GStroage/GStorage.cpp: load, loadBuffer, loadElement, loadEvent, loadParam, loadDaemon, loadStage, loadAspect, loadEParam", "src/GraphCtrl/GraphPipeline/GPipeline.cpp: load, innerRegister, setUniqueThreadPoolConfig", "src/UtilsCtrl/ThreadPool/UThreadPoolConfig.h: check"]}
{"id": "C113", "title": "Daemons from init to deletion", "statement": "Between calls, the daemons of a pipeline are executed, again and again, exactly while the pipeline is initialised: once init has succeeded every daemon is executed at its interval, once destroy has returned none is. No daemon is executed while it is being deleted with its pipeline. init, destroy and deletion return.", "quantifier": "all numbers of daemons, intervals, sequences of init, destroy and delete, results of the other parts of them, and schedules of the timers", "why_tests_cant": "The daemons run on their own threads: whether one is in its task at the moment of a destroy or delete depends on the schedule.", "anchors": ["src/GraphCtrl/GraphDaemon/GDaemonManager.cpp: init, destroy, clear", "src/GraphCtrl/GraphDaemon/GDaemon.cpp: init, destroy", "src/GraphCtrl/GraphPipeline/GPipeline.cpp: init, destroy, ~GPipeline", "src/UtilsCtrl/Timer/UTimer.h: start, stop, ~UTimer"]}
{"id": "C114", "title": "The result of a run does not depend on engine or schedule", "statement": "If elements that touch the same data, one of them writing, depend on each other directly or not, then a run leaves the same data and every element reports the same status with every engine, every schedule and every assignment to threads: those that executing the elements one after another, in any order that respects the dependencies, would leave and report. In particular either every run on given data succeeds or none does. trim does not change this.", "quantifier": "all acyclic graphs, programs of the elements (reads, writes, statuses that depend on what was read), initial data, engines, interleavings of single reads and writes, and numbers of runs", "why_tests_cant": "The number of interleavings of reads and writes of a few elements is beyond any test; tests see the schedules of the machine they run on.", "anchors": ["src/GraphCtrl/GraphElement/_GEngine/GDynamicEngine/GDynamicEngine.cpp: run, process, afterElementRun", "src/GraphCtrl/GraphElement/_GEngine/GStaticEngine/GStaticEngine.cpp: run", "src/GraphCtrl/GraphElement/_GEngine/GTopoEngine/GTopoEngine.cpp: run", "src/GraphCtrl/GraphElement/GElement.cpp: fatProcessor", "src/GraphCtrl/GraphParam/GParamManagerWrapper.h: getGParam"]}
{"id": "C115", "title": "When run has returned, nothing of it is still going on", "statement": "When run() of a pipeline has returned, whatever it returned, no element of it is being executed and none starts any more until run() is called again: parameters are reset, run is called again, elements are destroyed and deleted only while no element is being executed.", "quantifier": "all acyclic graphs, statuses of elements, engines, numbers of threads, own and shared thread pools, sequences of run, destroy and deletion, and schedules", "why_tests_cant": "Whether something of a run is left depends on which thread is how far at the moment an element fails; a test sees a few schedules and does not look at what happens after run has returned.", "anchors": ["src/GraphCtrl/GraphPipeline/GPipeline.cpp: run, destroy, ~GPipeline", "src/GraphCtrl/GraphPipeline/_GSchedule/GSchedule.cpp: destroy", "src/GraphCtrl/GraphElement/_GEngine/GDynamicEngine/GDynamicEngine.cpp: innerExec, afterElementRun, fatWait, parallelRunOne", "src/GraphCtrl/GraphElement/_GEngine/GStaticEngine/GStaticEngine.cpp: run", "src/UtilsCtrl/ThreadPool/UThreadPool.cpp: destroy"]}
{"id": "C116", "title": "Order, completeness and errors at every depth of nesting", "statement": "In a pipeline whose elements are groups inside of groups (regions, clusters, conditions, multi-conditions, loops): if a group orders child a before child b, then nothing anywhere inside b starts before a has ended without error, and not while anything inside a is executing; an element starts only while all groups around it are executing or have failed, and only when nothing inside it is still executing; a group that ends without error has executed its children completely and nothing inside it, at any depth, has failed or is still executing; an error at any depth makes every group around it fail, and the code a failing element reports was reported by user code inside of it during this execution.", "quantifier": "all trees of groups of any depth, all engines for each region, all results of nodes and of code of groups, any number of runs, all interleavings", "why_tests_cant": "The number of shapes of nested groups and of schedules across levels is unbounded; tests nest two or three levels and rarely fail in the innermost one while siblings are executing.", "anchors": ["src/GraphCtrl/GraphElement/GGroup/GRegion/GRegion.cpp: run", "src/GraphCtrl/GraphElement/GGroup/GCluster/GCluster.cpp: run", "src/GraphCtrl/GraphElement/GGroup/GCondition/GMultiCondition.inl: serialRun, parallelRun", "src/GraphCtrl/GraphElement/GElement.cpp: fatProcessor", "src/GraphCtrl/GraphElement/GElementManager.cpp: run"]}
{"id": "C117", "title": "The data that a run of nested groups leaves do not depend on engines and schedules", "statement": "In a pipeline of groups inside of groups in which nodes that touch the same data (one of them writing) are ordered by some group around them (by dependencies at any level, or by a sequence), a run that succeeds leaves the data that the nodes leave when they are executed one after another in any order the groups allow; two runs from the same data, with any engines in the pipeline and its regions and in any schedules, both succeed or both fail, and leave the same data and statuses if they succeed; a later run of the pipeline does nothing that a first run could not do.", "quantifier": "all trees of groups, programs of nodes without unordered conflicts, initial data, engines of every region, interleavings of reads and writes, and numbers of runs", "why_tests_cant": "Schedules across levels of nesting are unbounded, and a lost ordering shows only in rare ones.", "anchors": ["src/GraphCtrl/GraphElement/GGroup/GRegion/GRegion.cpp: run", "src/GraphCtrl/GraphElement/GElement.cpp: fatProcessor", "src/GraphCtrl/GraphElement/GGroup/GCluster/GCluster.cpp: run", "GraphCtrl/GraphParam/GParamManager.h: get", "src/GraphCtrl/GraphElement/_GEngine/GDynamicEngine/GDynamicEngine.cpp: run"]}
{"id": "C118", "title": "An accepted setting takes effect, changes nothing else, and holds until the next accepted one", "statement": "Whatever a program configures, initialises, runs and destroys: a call on an element (name, loop, level, visibility, binding, timeout, macro, dependences, element parameters, aspects, functions of a GFunction) that is accepted sets what it names and nothing else, one that is refused changes nothing, and every setting is the one given by the last accepted call on that element. An element that is not initialised refuses only a loop count other than one together with a time limit, a negative time limit, a time limit with a loop count above one, a group as macro, and the removal of a dependence it has not; so an element never has both a time limit and a loop count above one.", "quantifier": "all histories of calls on a pipeline and its elements, all values", "why_tests_cant": "The settings depend on unbounded histories of accepted and refused calls in every phase of the pipeline.", "anchors": ["src/GraphCtrl/GraphElement/GElement.cpp: setName, setLoop, setLevel, setVisible, setBindingIndex, setTimeout, setMacro, addDependGElements, removeDepend", "src/GraphCtrl/GraphElement/GElement.inl: addGAspect, addEParam", "src/GraphCtrl/GraphElement/GAdapter/GFunction/GFunction.cpp: setFunction"]}
{"id": "C119", "title": "An accepted registration does what it says and nothing else", "statement": "A registration of an element is accepted exactly when neither the pipeline nor the element is initialised, the element may be registered this way (a new node; a group of the named class that is not registered; an element outside of all groups that is not registered), every dependence is a non-null element with the same parent, and an element with a time limit gets the loop count one. It then puts the element into the pipeline once, with the name, loop count and dependences of the call, and changes nothing of any other element. After any program of registrations the pipeline has exactly the elements of the accepted calls, each once.", "quantifier": "all states of a pipeline, all calls, all programs of calls", "why_tests_cant": "Which calls are accepted and what they leave depends on unbounded sequences of earlier calls.", "anchors": ["src/GraphCtrl/GraphPipeline/GPipeline.inl: registerGElement", "src/GraphCtrl/GraphPipeline/GPipeline.cpp: registerGNode, registerGGroup, innerRegister", "src/GraphCtrl/GraphElement/GElement.cpp: addElementInfo, addDependGElements, setLoop, setName"]}
{"id": "C120", "title": "Waiting for events ends", "statement": "As long as run() is waiting for events or destroy() has not returned, this call can make a step itself, or a trigger that the pool holds can be started or finished, whatever was notified with whatever strategy; once no more calls are made, only finitely many steps remain. So run() and destroy() return, and no notify stays blocked.", "quantifier": "all events, histories of run, destroy and notify calls from any threads, and schedules", "why_tests_cant": "A lock held while waiting for a future can block in rare schedules only.", "anchors": ["GraphCtrl/GraphEvent/GEvent.cpp: asyncProcess, asyncWait, fatDestroy", "GraphCtrl/GraphEvent/GEventManager.cpp: reset, destroy", "src/GraphCtrl/GraphPipeline/GPipeline.cpp: run, destroy"]}
{"id": "C121", "title": "Pipelines that share a thread pool do not notice each other, and all of them return", "statement": "For any number of pipelines that use one thread pool (setSharedThreadPool) and run at the same time, with others giving tasks to the pool as well: elements of each pipeline start after their dependences and at most once per run, OK means that all of its elements ran once without error, an error that is reported comes from one of its own elements, and errors of other pipelines do not reach it; an element with a binding index starts in the thread it asks for or in one that may steal from it; a thread is never inside two elements. As long as everyone gets to act from time to time, every active run whose elements report no error returns OK with all its elements executed, after a bounded number of rounds, and nobody can be kept from acting: the pipelines do not deadlock each other.", "quantifier": "all numbers of pipelines, acyclic graphs, binding indexes, pool configurations, other users of the pool, histories of runs and schedules", "why_tests_cant": "The pipelines meet in the queues of the pool in any interleaving; tests see a few.", "anchors": ["src/GraphCtrl/GraphPipeline/GPipeline.cpp: setSharedThreadPool", "src/GraphCtrl/GraphPipeline/_GSchedule/GSchedule.cpp: init, makeType, getThreadPool", "src/GraphCtrl/GraphElement/_GEngine/GDynamicEngine/GDynamicEngine.cpp: process, innerExec, afterElementRun, fatWait", "src/UtilsCtrl/ThreadPool/UThreadPool.inl: execute"]}
{"id": "C122", "title": "getRelation tells how the pipeline was put together", "statement": "While a pipeline is being put together, in every history of making, grouping, registering, adding and removing dependencies: b is listed as predecessor of a exactly if a is listed as successor of b, no element is its own, nothing is listed twice; the predecessors are exactly those that accepted calls asked for and did not take back (so that a refused call leaves no trace); an element is listed as a child of a group exactly if it belongs to it, and the children are those the group was made of, in this order.", "quantifier": "all histories of calls before init, all elements and groups, all nestings", "why_tests_cant": "Each list is kept in a different object and changed by different calls; only some orders of calls are tested.", "anchors": ["src/GraphCtrl/GraphElement/GElement.cpp: getRelation, addDependGElements, removeDepend", "src/GraphCtrl/GraphElement/GElementRelation.h: GElementRelation", "src/GraphCtrl/GraphElement/GGroup/GGroup.cpp: addElement", "src/GraphCtrl/GraphPipeline/GPipeline.cpp: innerRegister"]}
{"id": "C123", "title": "What an element wrote is seen by those that depend on it and by the caller", "statement": "In the sense of the C++ memory model, in every run of the dynamic engine on a thread pool: whatever an element did happens before the start of every element that depends on it, directly or not; whatever the caller did before run happens before every element; whatever the elements did happens before the return of run; and the engine itself accesses its shared status without a data race.", "quantifier": "all graphs, all schedules of caller and workers, all runs, all results of the elements", "why_tests_cant": "A missing happens-before edge usually does no harm on the machine the tests run on; it needs the right interleaving, compiler and processor to show.", "anchors": ["src/GraphCtrl/GraphElement/_GEngine/GDynamicEngine/GDynamicEngine.cpp: commonRunAll, process, innerExec, afterElementRun, fatWait, prepareRun", "src/GraphCtrl/GraphElement/GElement.cpp: refresh", "src/UtilsCtrl/ThreadPool/Queue/UAtomicQueue.h: push, tryPop"]}
{"id": "C124", "title": "run returns although elements nobody waits for go on to notify events", "statement": "When the engine has returned, with an error or because elements were given up after a timeout, and such elements are still running on the thread pool and notify events there, run still ends its waiting for events and returns.", "quantifier": "all numbers of pool threads, all sets of events in all orders of the map, all notifications, all schedules of the caller and the pool", "why_tests_cant": "It takes as many left-over elements as the pool has threads, each stopped between two steps of a notification, at the moment run waits for the same event.", "anchors": ["src/GraphCtrl/GraphEvent/GEvent.cpp: asyncProcess, asyncWait", "src/GraphCtrl/GraphEvent/GEventManager.cpp: reset, trigger", "src/GraphCtrl/GraphPipeline/GPipeline.cpp: run", "src/GraphCtrl/GraphElement/GElementRepository.cpp: reset", "src/GraphCtrl/GraphElement/GElement.cpp: asyncRun"]}
{"id": "C125", "title": "dependencies, calls and returns order memory in the static engine and the parallel path", "statement": "On the static engine, what an element did is visible to every element that depends on it, and all of it to the caller when run ends, with OK, with an error or by an exception. On the parallel path of the dynamic engine (no dependencies) all of it is visible to the caller when run returns. What the caller did before run is visible to every element. The engines do not race on the status they share between threads.", "quantifier": "all graphs, all choices of elements run by the caller, all results and exceptions of elements, all schedules of the caller and the workers; repeated runs on the parallel path", "why_tests_cant": "A missing happens-before edge shows only on weakly ordered hardware or under a compiler that uses it, and a data race may show as anything.", "anchors": ["src/GraphCtrl/GraphElement/_GEngine/GStaticEngine/GStaticEngine.cpp: run", "src/GraphCtrl/GraphElement/_GEngine/GDynamicEngine/GDynamicEngine.cpp: parallelRunAll, parallelRunOne", "src/UtilsCtrl/ThreadPool/UThreadPool.inl: commit, executeWithTid", "src/UtilsCtrl/ThreadPool/Queue/UAtomicQueue.h: push, tryPop", "src/CBasic/CStatus.h: operator+="]}
{"id": "C126", "title": "The lock-free ring and the spin lock are correct with the memory orders of the code", "statement": "With one producer and one consumer the lock-free ring is a bounded FIFO and its slots are never raced on although its indices are only released and acquired, so that each side may see old values of the other; tryPop answers false, and push goes on waiting, only because of values or room the caller has not been told of. The spin lock, with the orders it names, lets one thread in at a time, and plain data accessed only inside is never raced on.", "quantifier": "every capacity, every interleaving, every value that a load may return, every synchronisation of the threads by other means; any number of threads and objects for the lock", "why_tests_cant": "Old values and missing visibility show only on weakly ordered hardware.", "anchors": ["src/UtilsCtrl/ThreadPool/Queue/ULockFreeRingBufferQueue.h", "src/UtilsCtrl/ThreadPool/Lock/USpinLock.h"]}
{"id": "C127", "title": "What tasks did is visible when the pool is destroyed, and its threads are stopped without data races", "statement": "What a thread did before it handed a task to the pool happens before the task; all that a pool thread did happens before the return of its join; a pool thread that did anything before destroy returned does nothing afterwards, and all that it did happens before that return. The flag that tells a pool thread to stop is never raced on.", "quantifier": "every number of primary and secondary threads, of tasks, of user threads that commit, create, release and monitor; every interleaving", "why_tests_cant": "A data race or a missing happens-before edge shows, if at all, only on some machines and compilers.", "anchors": ["src/UtilsCtrl/ThreadPool/Thread/UThreadBase.h: reset, loopProcess", "src/UtilsCtrl/ThreadPool/Thread/UThreadPrimary.h: fatWait", "src/UtilsCtrl/ThreadPool/Thread/UThreadSecondary.h: freeze", "src/UtilsCtrl/ThreadPool/UThreadPool.cpp: init, destroy, createSecondaryThread, releaseSecondaryThread, monitor"]}
{"id": "C128", "title": "Threads that run at the same time may create, remove, send to and receive from topics", "statement": "Elements and other threads which run at the same time may call createTopic, removeTopic, sendTopicValue and recvTopicValue freely. Every execution is equivalent to the same calls made one after the other: each takes effect once, between its start and its return, with the answer that a bounded queue gives after the earlier calls; messages are neither lost, duplicated nor reordered; a call waits only for a message or for room; no call is undefined.", "quantifier": "all numbers of threads and topics, all sequences of calls by each of them, all interleavings of the accesses to the map of topics and of the uses of a message, all timeouts", "why_tests_cant": "A send that overlaps with a createTopic which rehashes the map, or a receive that waits while its topic is removed, needs a schedule a test cannot force.", "anchors": ["src/GraphCtrl/GraphMessage/GMessageManager.h: createTopic, removeTopic, recvTopicValue, sendTopicValue", "src/GraphCtrl/GraphMessage/GMessage.h: send, recv", "src/UtilsCtrl/ThreadPool/Queue/UAtomicRingBufferQueue.h: push, waitPopWithTimeout"]}
{"id": "C129", "title": "Threads that run at the same time may bind, publish and subscribe", "statement": "Elements and other threads which run at the same time may call bindTopic, pubTopicValue and subTopicValue freely. A publication reaches every connection that was bound before it once, and no other topic; all connections of a topic see overlapping publications in the same order; a receive hands out the oldest unread value of its connection, and values are neither lost (when publications wait for room), duplicated nor reordered; a call waits only for a value or for room; no call is undefined.", "quantifier": "all numbers of threads, topics and connections, all sequences of calls by each of them, all interleavings of the lookups, of the pushes of each publication and of the binds, all strategies, sizes and timeouts", "why_tests_cant": "A bind in the middle of a publication loop, or two publications which overtake each other between two connections, needs a schedule a test cannot force.", "anchors": ["src/GraphCtrl/GraphMessage/GMessageManager.h: bindTopic, pubTopicValue, subTopicValue", "src/GraphCtrl/GraphMessage/GMessage.h: send, recv", "src/UtilsCtrl/ThreadPool/Queue/UAtomicRingBufferQueue.h: push, waitPopWithTimeout"]}
{"id": "C130", "title": "What is sent is seen by the receiver, and belongs to it", "statement": "In the sense of the C++ memory model, for topics and for publish/subscribe connections: whatever a thread did before it sent or published a value happens before whatever the thread which receives it does afterwards; the buffers of messages are accessed without data races; and a received value may be read and written by its receiver without a data race.", "quantifier": "all numbers of threads, channels and values, all sequences of sends, publications, receives and uses, all strategies, sizes, sleeps and timeouts, all interleavings", "why_tests_cant": "Visibility between threads depends on the hardware and on the schedule; a test on one machine shows neither missing synchronisation nor races that did not happen.", "anchors": ["src/UtilsCtrl/ThreadPool/Queue/UAtomicRingBufferQueue.h: push, waitPopWithTimeout", "src/GraphCtrl/GraphMessage/GMessage.h: send, recv", "src/GraphCtrl/GraphMessage/GMessageManager.h: sendTopicValue, recvTopicValue, pubTopicValue, subTopicValue"]}
{"id": "C131", "title": "A pool that watches itself is as safe as one that does not", "statement": "A thread pool whose monitor is enabled can be set up, taken down, set up again and deleted like any other: no such call ends the program, the monitor never touches a primary thread that was deleted, deletion returns, and what the monitor and the calls share is accessed without data races.", "quantifier": "all numbers of primary threads, all spans of the monitor, all sequences of setConfig (of whether the pool is watched), init, destroy and deletion by one thread, all interleavings with the monitor and all answers of the primary threads to the question whether they are running", "why_tests_cant": "The monitor sleeps for seconds between its looks, so the few instructions in which a destroy hurts it are hardly ever hit in a test, and whether a race on a flag shows depends on compiler and hardware.", "anchors": ["src/UtilsCtrl/ThreadPool/UThreadPool.cpp: ~UThreadPool, setConfig, init, destroy, monitor", "src/UtilsCtrl/ThreadPool/UThreadPool.h: monitor_thread_, is_init_, config_"]}
{"id": "C132", "title": "A timer may be started and stopped by several threads", "statement": "Threads may call start and stop of one timer in any order and at the same time: no such call is undefined, at most one timer thread works at any time, when stop has returned the task is not being executed any more, and every call returns if the task does.", "quantifier": "all numbers of threads, all sequences and interleavings of their calls of start and stop with each other and with the timer threads, all moments at which these wake up", "why_tests_cant": "The calls interfere only if one falls between two statements of the other, which a test cannot arrange.", "anchors": ["src/UtilsCtrl/Timer/UTimer.h: start, stop"]}
{"id": "C133", "title": "Random data have the requested shape and range, and sessions their form", "statement": "A random vector has the requested size and a random matrix the requested rows and columns, whatever the container held before; all values are in the requested range, and the matrix read row by row is the vector of as many values; with a fixed seed other than 0 every call gives the same values, and a longer vector begins with the shorter one; a session consists of the requested number of groups of exactly six digits, each followed by a dash, and then the key.", "quantifier": "all engines and distributions that keep to their range, all seeds, sizes, ranges and keys, all former contents of the container", "why_tests_cant": "Tests see a few draws of one engine; the claims are about all draws, all shapes and all seeds.", "anchors": ["src/UtilsCtrl/Random/URandom.h: generate, generateSession", "src/UtilsCtrl/Random/URandomDefine.h: CGRAPH_REAL_RANDOM"]}
