#!/usr/bin/env python3
"""Source of truth for properties.jsonl: `python3 tools/props.py > properties.jsonl`."""
import json
P = []
def prop(id, title, statement, quantifier, why, anchors):
    P.append(dict(id=id, title=title, statement=statement, quantifier=quantifier,
                  why_tests_cant=why, anchors=anchors))
E='src/GraphCtrl/GraphElement/'
PL='src/GraphCtrl/GraphPipeline/'
TP='src/UtilsCtrl/ThreadPool/'

prop('C01','Status accumulation keeps the first error',
 'Folding any sequence of CStatus values into a status with += yields exactly the first negative-code (error) status of the sequence, with its code and message, or the initial status when the sequence holds no error; += is associative, adding a non-error status changes nothing, no error is ever lost, and positive (warning) codes never replace an OK status.',
 'every initial status and every finite sequence of statuses (any integer code, any message)',
 'sequences of any length and any mix of codes; a test samples a few codes',
 ['src/CBasic/CStatus.h: CStatus::operator+=, isOK, isErr, isCrash, operator=, setStatus'])
prop('C02','Dependency edges stay symmetric, irreflexive and duplicate free',
 'After any history of dependency insertions (successful or failing half way) and trim-style removals, A lists B as a dependency iff B lists A as a successor, no element depends on itself, no edge is stored twice; a removal removes exactly the requested edge; a failing insertion adds no edge that was not requested.',
 'every finite history of addDependGElements/removeDepend calls over any set of elements with any group assignment',
 'the histories are unbounded and include calls that fail in the middle of the set',
 [E+'GElement.cpp: GElement::addDependGElements, GElement::removeDepend, GElement::getRelation','src/UtilsCtrl/Container/USmallVector.h: USmallVector::insert, remove'])
prop('C03','init accepts a dependency graph exactly when it is acyclic',
 'For each of the three engines, setting the engine up on a set of elements with closed symmetric dependencies succeeds if and only if the dependency relation has no cycle; the order/layering it computes contains every element exactly once and puts each element strictly after all its dependencies.',
 'every finite dependency graph',
 'the graphs are unbounded; no finite sample shows that every cyclic graph is rejected and no acyclic one is',
 [E+'_GEngine/GEngine.h: GEngine::getTopo, isDag',E+'_GEngine/GStaticEngine/GStaticEngine.cpp: GStaticEngine::setup',E+'_GEngine/GTopoEngine/GTopoEngine.cpp: GTopoEngine::setup',E+'_GEngine/GDynamicEngine/GDynamicEngine.cpp: GDynamicEngine::setup'])
prop('C04','Topological engine runs every element once, in dependency order, until the first failure',
 'For any DAG and any results returned by the elements, the topological engine invokes elements one by one, each at most once and only after all of its dependencies returned without error; without failures every element is invoked exactly once and the result is OK; with a failure the failing element is the last one invoked and its status is the result.',
 'every DAG and every assignment of results to elements',
 'unbounded graphs and failure positions',
 [E+'_GEngine/GTopoEngine/GTopoEngine.cpp: GTopoEngine::setup, run',E+'_GEngine/GEngine.h: getTopo'])
prop('C05','Static engine separates dependent elements by a barrier',
 'For any DAG and any schedule of the thread pool inside each layer, the static engine starts an element only after all its dependencies have finished without error; each element is started at most once; if nothing fails all elements run exactly once; if an element fails no element of a later layer starts and the result is an error returned by an element of that layer.',
 'every DAG, every assignment of results, every interleaving of the elements of a layer',
 'the interleavings of a layer are exponential and scheduler dependent',
 [E+'_GEngine/GStaticEngine/GStaticEngine.cpp: GStaticEngine::setup, run'])
prop('C06','Dynamic engine: an element starts only after all its dependencies finished',
 'In every execution of the dynamic engine on a DAG with any number of worker threads, whenever an element starts, all of its dependencies have already finished without error in the same run, and no element is ever started twice in one run (run being called again after a failed run only once the thread pool is idle).',
 'every DAG, every assignment of results, every interleaving of the atomic steps of all threads',
 'depends on the schedule; the interleavings cannot be enumerated by tests',
 [E+'_GEngine/GDynamicEngine/GDynamicEngine.cpp: commonRunAll, process, innerExec, afterElementRun',E+'_GEngine/GEngine.h: calcShape'])
prop('C07','Dynamic engine: a run that returns OK has executed every element exactly once',
 'In every execution in which run returns an OK status, every element of the DAG was started exactly once and finished before run returned; and the dependency counters are back to their initial values so the next run starts from the same state (run being called again after a failed run only once the thread pool is idle).',
 'every DAG, every interleaving, every number of successive runs',
 'depends on the schedule; a lost or duplicated execution shows only under rare interleavings',
 [E+'_GEngine/GDynamicEngine/GDynamicEngine.cpp: afterElementRun, fatWait, prepareRun',E+'GElement.cpp: GElement::refresh'])
prop('C08','Dynamic engine: without errors a run always terminates',
 'If no element reports an error then in every reachable state of a dynamic-engine run that has not returned, some thread has an enabled step, and every execution has a bounded number of steps, so run returns.',
 'every DAG, every interleaving',
 'absence of deadlock over all schedules cannot be tested',
 [E+'_GEngine/GDynamicEngine/GDynamicEngine.cpp: commonRunAll, afterElementRun, fatWait'])
prop('C09','Dynamic engine: an error is reported and stops what depends on it',
 'If some element reports an error and run returns, the returned status is an error that some element reported in this run; an OK result means no element failed; and no element depending, directly or transitively, on a failed element is started in that run.',
 'every DAG, every assignment of results, every interleaving, including the point between testing the wait condition and going to sleep',
 'the notification race window is a few instructions wide',
 [E+'_GEngine/GDynamicEngine/GDynamicEngine.cpp: innerExec, fatWait, prepareRun'])
prop('C10','Dynamic engine fast paths are sound',
 'The all-serial path is chosen only if the elements form one chain, and it then runs them in chain order, stopping at the first failure; the all-parallel path is chosen only if there is no dependency at all, and its task matrix contains every element exactly once, in rows no longer than ceil(n/threads), and at most `threads` rows; all shapes assigned to elements are the ones their successor counts justify.',
 'every DAG and every positive thread number',
 'unbounded graphs and thread numbers',
 [E+'_GEngine/GDynamicEngine/GDynamicEngine.cpp: mark, analysisDagType, analysisParallelMatrix, parallelRunAll, serialRunAll',E+'_GEngine/GEngine.h: calcShape'])
prop('C11','trim removes exactly the redundant dependencies',
 'On any acyclic set of elements trim keeps the reachability relation unchanged, removes every dependency that is implied by other dependencies, removes nothing else, and returns the number of removed dependencies.',
 'every finite DAG',
 'all graphs of all sizes; preservation of reachability is a statement about all paths',
 [E+'_GOptimizer/GTrimOptimizer.h: GTrimOptimizer::trim',E+'_GOptimizer/GOptimizer.h: collect, collectPaths, buildGraph',PL+'GPipeline.cpp: GPipeline::trim'])
prop('C12','getMaxPara returns the exact maximal parallelism',
 'For any DAG of plain elements getMaxPara returns the size of a largest set of elements no two of which are connected by a dependency path; if a group is present it refuses instead of returning a number.',
 'every finite DAG',
 'the value is a maximum over all antichains; tests check a few graphs',
 [E+'_GOptimizer/GMaxParaOptimizer.h: getMaxParaSize, calcMaxCliqueSize, enumMaxClique, buildGraph',PL+'GPipeline.cpp: GPipeline::getMaxPara'])
prop('C13','checkSeparate answers true only for elements ordered by dependencies',
 'Asking whether two elements of the same level are separate returns true iff a dependency path leads from one of them to the other; the answer does not depend on the order of the two arguments; hence a true answer implies they are never executed concurrently in one run.',
 'every finite DAG and every pair of its elements',
 'a statement about all paths of all graphs and all schedules',
 [E+'_GOptimizer/GSeparateOptimizer.h: checkSeparate, getNearestAncestor, getPatch',PL+'GPipeline.cpp: GPipeline::checkSeparate'])
prop('C14','An element runs its body exactly loop times, bracketed by aspects',
 'While the pipeline is not cancelled, suspended or timed out, running a visible element whose body and aspects succeed invokes, per iteration, all begin-run aspects in order, then the body (again while it asks to be held), then all finish-run aspects in order, and repeats exactly `loop` times; the first error (from an aspect or the body) stops the iteration and is returned; a begin-run error prevents the body of that iteration; an invisible element does nothing and reports OK.',
 'every loop count, every number of aspects, every behaviour (status, hold decision) of bodies and aspects',
 'unbounded loop counts and all failure positions',
 [E+'GElement.cpp: GElement::fatProcessor, doAspect','src/GraphCtrl/GraphAspect/GAspectManager.cpp: GAspectManager::reflect'])
prop('C15','Exceptions inside an element never escape it; they become a crash status',
 'Whatever CGraph exceptions (CException) init, prepareRun, run, destroy, checkRunResult or the aspects of an element throw, and whatever statuses they report, processing the element returns a status and never throws, provided the crash handler aspects themselves do not throw; such an exception (or a crash-coded status of prepareRun or a begin aspect, or an error of checkRunResult) yields a status with the crash code, and every enter-crashed aspect is called exactly once, in order; otherwise none is called. Exceptions of other types are C54.',
 'every behaviour of the user callbacks',
 'every throw position',
 [E+'GElement.cpp: GElement::fatProcessor (try/catch)','src/UtilsCtrl/UtilsDefine.h: CGRAPH_FUNCTION_CHECK_STATUS'])
prop('C16','An element crash is reported by pipeline run as a status, whatever the engine',
 'If an element crashes during run, GPipeline::run returns a crash status (does not throw) and still performs the end-of-run actions (waiting for held elements, resetting parameters and events), for every engine type.',
 'every engine type, DAG and crash position',
 'the engines differ in code paths; needs every engine times every crash position',
 [E+'_GEngine/GTopoEngine/GTopoEngine.cpp: run',E+'_GEngine/GStaticEngine/GStaticEngine.cpp: run',PL+'GPipeline.cpp: GPipeline::run','src/UtilsCtrl/UtilsDefine.h: CGRAPH_FUNCTION_CHECK_STATUS'])
prop('C17','prepareRun succeeds at most once per initialization, and before the first body execution',
 'In every history of init/run/destroy calls on an element, prepareRun is not invoked again after it succeeded until the next init (after a failure it is retried), and whenever the body is executed prepareRun was invoked, successfully, since the last init.',
 'every finite history of lifecycle calls and every callback behaviour',
 'unbounded histories',
 [E+'GElement.cpp: GElement::fatProcessor (is_prepared_)'])
prop('C18','loop and timeout stay mutually exclusive',
 'After any sequence of setLoop/setTimeout calls (accepted or rejected), an element never has a positive timeout together with a loop count above one, a rejected call changes nothing, the timeout is never negative, and once initialized the values no longer change.',
 'every finite sequence of setter calls with any arguments',
 'unbounded call sequences',
 [E+'GElement.cpp: GElement::setLoop, setTimeout, checkSuitable'])
prop('C19','Cluster runs its children sequentially in insertion order until the first error',
 'A cluster run invokes its children one after another in insertion order, stops right after the first child that reports an error and returns that error, otherwise returns OK after the last child.',
 'every list of children and every assignment of results',
 'unbounded number of children and failure positions',
 [E+'GGroup/GCluster/GCluster.cpp: GCluster::run'])
prop('C20','Condition runs exactly the chosen child',
 'A condition whose choice is k runs exactly the k-th child when k is a valid index, exactly the last child when k is -1 and there is at least one child, and no child otherwise (reporting OK); it returns the status of the child it ran.',
 'every number of children and every integer choice',
 'every integer choice and child count',
 [E+'GGroup/GCondition/GCondition.cpp: GCondition::run'])
prop('C21','Multi-condition runs exactly the matching children',
 'A serial multi-condition runs the matching children in insertion order until the first error; a parallel one starts every matching child exactly once under any schedule, waits for all of them and returns an error iff one of them reported an error; non-matching children never run.',
 'every list of children, every match predicate, every assignment of results, every interleaving',
 'unbounded children and schedules',
 [E+'GGroup/GCondition/GMultiCondition.inl: serialRun, parallelRun'])
prop('C22','Some-group returns after the trigger number of children finished',
 'A some-group with trigger number n returns OK only after at least n of its children finished without error, returns an error if a child that finished before that point failed, rejects n larger than the number of children, and never blocks once n children finished.',
 'every number of children, trigger number, assignment of results and interleaving',
 'depends on the order in which children finish',
 [E+'GGroup/GSome/GSome.cpp: GSome::run, checkSuitable',E+'GGroup/GSome/GSome.inl'])
prop('C23','Re-running a some-group runs its children again',
 'Whenever a some-group is executed again (next pipeline run, or next iteration of an enclosing loop), its children are executed again.',
 'every history of executions',
 'histories are unbounded',
 [E+'GGroup/GSome/GSome.cpp: GSome::run',E+'GElementRepository.cpp: reset'])
prop('C24','Pipeline lifecycle calls are accepted only in the right state',
 'For every history of API calls on a pipeline, run/asyncRun/destroy succeed only between a successful init and the next destroy, registration and configuration calls are refused exactly in that interval, refused calls leave the pipeline unchanged, and process(n) is init, up to n runs stopping at the first failure or cancellation, then destroy.',
 'every finite history of API calls and every result of the user callbacks',
 'unbounded histories',
 [PL+'GPipeline.cpp: init, run, destroy, process, registerGNode, setGEngineType, setSharedThreadPool, setUniqueThreadPoolConfig'])
prop('C25','A pipeline whose init failed can be destroyed and initialised again',
 'After a failed init the pipeline can be brought back: destroy or a second init (with the cause of the failure gone) succeeds.',
 'every failure position inside init',
 'every failure position of every callback',
 [PL+'GPipeline.cpp: init, destroy',E+'GElementManager.cpp: init',E+'GElementRepository.cpp: setThreadPool, init'])
prop('C26','Parameters behave as a typed map',
 'For any history of create/get/remove calls: get with the key and exact type of a live parameter returns that very object, get with another type or unknown key returns null, creating an existing key succeeds only with the same type and then keeps the stored object, remove makes the key unknown, and operations on one key do not affect others.',
 'every finite history of parameter operations over any keys and types',
 'unbounded histories',
 ['src/GraphCtrl/GraphParam/GParamManager.inl: create, get','src/GraphCtrl/GraphParam/GParamManager.cpp: removeByKey, clear'])
prop('C27','Every run sets up all parameters before and resets them after the elements',
 'Every accepted run first calls setup of every parameter, once and in order, before any element runs. If one fails, no element runs and the first error is the result of run. Otherwise, once the elements have run (and unless the engine throws, C16), reset is called once for every parameter, including those created during the run, with the very status that run returns.',
 'every set of parameters, every run result',
 'every number of parameters and failure positions',
 [PL+'GPipeline.cpp: run','src/GraphCtrl/GraphParam/GParamManager.cpp: setup, reset'])
prop('C28','Asynchronous events finish when their wait strategy says so',
 'Every accepted notification triggers its event exactly once (a synchronous one before it returns), unless the pool of the pipeline is deleted before; one sent with the run-finish strategy before the elements of a run ended has been executed when that run returns, and the run waits for nothing else; notifications of unknown events report an error and trigger nothing.',
 'every history of notifications and every interleaving of the pool',
 'depends on the schedule',
 ['src/GraphCtrl/GraphEvent/GEvent.cpp: process, asyncProcess, asyncWait, fatDestroy','src/GraphCtrl/GraphEvent/GEventManager.cpp: trigger, asyncTrigger, reset'])
prop('C29','The message ring buffer is a bounded FIFO queue',
 'For every history of push and pop operations on a ring buffer of capacity c, pops return the pushed messages in order, without loss or duplication except that a push on a full buffer replaces the oldest message (REPLACE), drops the new one (DROP), or waits (WAIT); the buffer holds at most c-1 messages, pop on an empty buffer times out, and the indices never leave the buffer.',
 'every capacity of at least two, every finite history of operations with any strategies',
 'unbounded histories, index wrap-around',
 [TP+'Queue/UAtomicRingBufferQueue.h: push, waitPopWithTimeout, isFull, isEmpty'])
prop('C30','Send/receive topics are isolated typed FIFO channels',
 'For every history of createTopic/removeTopic/sendTopicValue/recvTopicValue/clear, every call on a topic answers as a bounded queue of its size does: a receive returns the oldest unreceived value sent to that topic since its creation or times out, an unknown topic is refused, re-creating a topic is accepted exactly for the same type and size; operations on one topic never affect another or the publish/subscribe topics.',
 'every finite history of topic operations',
 'unbounded histories over many topics',
 ['src/GraphCtrl/GraphMessage/GMessageManager.h: createTopic, removeTopic, recvTopicValue, sendTopicValue, clear'])
prop('C31','Published messages reach every bound subscriber and connections stay valid',
 'A published value is delivered once to every connection bound to the topic and still attached, connection ids are unique, a detached connection receives nothing more and is never touched again, and after dropTopic its connections are refused.',
 'every finite history of bind/detach/pub/sub/drop/clear calls',
 'use-after-free appears only in specific histories',
 ['src/GraphCtrl/GraphMessage/GMessageManager.h: bindTopic, detachConnId, pubTopicValue, subTopicValue, dropTopic, clear'])
prop('C32','A stage is a barrier for its threshold',
 'Threads entering a stage leave only after threshold threads of their round have entered, and the launch callback runs exactly once per threshold entries.',
 'every threshold, number of threads, number of rounds and interleaving',
 'a lost round shows only under one interleaving',
 ['src/GraphCtrl/GraphStage/GStage.cpp: GStage::waiting'])
prop('C33','Pipeline manager hands out each pipeline to one user at a time',
 'For every history of add/remove/fetch/release calls with distinct pipelines, fetch never returns a pipeline that was fetched and not released, released pipelines become available again, and no pipeline is lost or duplicated.',
 'every finite history of calls',
 'unbounded histories',
 [PL+'GPipelineManager.cpp: add, remove, fetch, release, getSize'])
prop('C34','Cancel stops a run early without error and does not poison later runs',
 'After cancel during a run no further element body starts once each running iteration ends, run returns OK if nothing failed, and the next run executes normally.',
 'every cancellation point and interleaving',
 'every cancellation point of every schedule',
 [PL+'GPipeline.cpp: cancel, run, process',E+'GElementRepository.cpp: pushAllState, setup',E+'GElement.cpp: fatProcessor'])
prop('C35','Suspend followed by resume loses no work',
 'A run during which suspend and later resume are called executes every element exactly as often as an undisturbed run, and always terminates after resume.',
 'every pair of suspension/resume points and every interleaving',
 'every suspension point of every schedule',
 [PL+'GPipeline.cpp: suspend, resume',E+'GElementRepository.cpp: pushAllState',E+'GElement.cpp: checkSuspend, fatProcessor'])
prop('C36','Timeout strategies',
 'An element with a timeout that does not finish in time makes run fail under AS_ERROR, and lets the pipeline continue under HOLD_BY_PIPELINE and NO_HOLD; under HOLD_BY_PIPELINE the pipeline run returns only after that element finished and its late error is part of the run result; in time elements behave as without timeout; the element is runnable again in the next run.',
 'every strategy, finishing order and result',
 'depends on timing',
 [E+'GElement.cpp: asyncRun, getAsyncResult, isTimeout',E+'GElementRepository.cpp: reset'])
prop('C37','Performance analysis reports the run and leaves the pipeline as it was',
 'If the run made by perf succeeds, and no body adds an aspect during it, perf reports for each element, also those inside groups, how many iterations it finished, the sum of their durations, when the first one began and when the last one finished (from the start of perf, unless the first began at that very moment); it marks exactly the elements of one path, from an element without dependencies to one on which none depends, such that no chain of dependencies of the pipeline has a larger total duration; and when it returns, every element has the aspects it had before, in the same order.',
 'every acyclic pipeline, every run of it (any number of iterations of any element, any interleaving, any durations), every set of aspects present before',
 'every graph and failure position',
 [PL+'_GPerf/GPerf.cpp: perf, inject, markLongestPath, recover'])
prop('C38','Binary reflection round trip',
 'For every structure type built from fixed-size fields, strings, vectors and nested structures (elements of vectors occupying at least one byte) and every value of it, reading the bytes written for the value into a fresh object gives the same value, consumes exactly the bytes written, and the announced size equals the number of bytes written.',
 'every schema and every value (any string length, any nesting depth) whose total size fits the length field',
 'values are unbounded in size and depth',
 ['src/UtilsCtrl/Reflection/UReflectionType.h: reflGetSize, reflWrite, reflRead','src/UtilsCtrl/Reflection/UReflectionSession.h'])
prop('C39','Saving and loading a pipeline reproduces it',
 'load of a file produced by save yields a pipeline with the same elements, settings, groups, dependencies, events, parameters, daemons, stages and pool configuration, provided all types are registered.',
 'every pipeline',
 'every pipeline shape and setting',
 [PL+'_GStroage/GStorage.cpp: save, load, loadElement, loadParam',PL+'_GStroage/GStorageDefine.h'])
prop('C40','Thread pool executes each accepted task exactly once',
 'In every interleaving of producers, primary threads (own pop, steal, pool pop, single or batch), secondary threads and waking, each task handed to the pool is executed at most once, and while the pool is not destroyed no task is lost: it is executed, in the hands of one thread, or still waiting in one queue or call. Apart from a thread number of zero, tasks given to a pool that is not initialised, and misuse of batch locking, no call is undefined.',
 'every number of threads and tasks, every configuration and interleaving',
 'duplicated or lost tasks show only in rare interleavings',
 [TP+'UThreadPool.inl: execute, executeWithTid, commitWithPriority',TP+'UThreadPool.cpp: dispatch',TP+'Thread/UThreadPrimary.h: processTask, stealTask, buildStealTargets',TP+'Queue/UWorkStealingQueue.h',TP+'Queue/UAtomicQueue.h'])
prop('C41','Every task queue of the pool is reachable by a running thread',
 'A task accepted by a running pool with at least one thread is in a queue that some thread of the pool takes from, so it is eventually executed, whatever strategy index it was submitted with.',
 'every strategy index, configuration and pool state',
 'configuration space times schedules',
 [TP+'UThreadPool.inl: execute',TP+'UThreadPool.cpp: dispatch',TP+'Thread/UThreadPrimary.h: buildStealTargets'])
prop('C42','Task groups report completion truthfully',
 'submit of a task group returns OK if every task has ended by the earlier of the two deadlines, and never while a task is still running; where the waits end on time it returns OK only if every task has ended by that deadline, and it returns by then. The finish callback is called exactly once, with the returned status. On a pool that is not initialised nothing is executed, nothing is called, and an error is returned.',
 'every number of tasks and every completion time',
 'depends on timing',
 [TP+'UThreadPool.cpp: submit',TP+'Task/UTaskGroup.h'])
prop('C43','Higher priority tasks are taken first',
 'Among tasks waiting in the priority queue, the one with the highest priority is taken first.',
 'every content of the queue',
 'depends on allocation addresses',
 [TP+'Queue/UAtomicPriorityQueue.h: push, tryPop',TP+'Task/UTask.h: operator<'])
prop('C44','The pool never exceeds its maximal thread number',
 'After any history of creations and releases of secondary threads the number of primary plus secondary threads is at most the configured maximum.',
 'every history and interleaving of createSecondaryThread/releaseSecondaryThread/monitor',
 'race between the size check and the lock',
 [TP+'UThreadPool.cpp: createSecondaryThread, releaseSecondaryThread, monitor'])
prop('C45','LRU cache semantics',
 'For every history of put/get/clear on a cache of capacity c>=1, a get hits iff the key is among the c most recently used distinct keys since the last clear, a hit returns the last value put for the key, and the cache never holds more than c entries.',
 'every capacity, every finite history',
 'unbounded histories',
 ['src/UtilsCtrl/Lru/ULru.h: put, get, clear'])
prop('C46','Small vector behaves as a list',
 'For every history of insert (unique or not, of values from outside the vector), remove and clear, the small vector represents the list obtained by the same operations on a mathematical list, and never accesses memory outside its allocation.',
 'every finite history, every growth step',
 'unbounded histories',
 ['src/UtilsCtrl/Container/USmallVector.h: insert, remove, clear, hasValue, asVector'])
prop('C47','Periodic daemon timing and stop',
 'The interval until the next shot is the requested one less the time the last shot took (the whole one if it took longer), or the one modify asked for, which applies to the next shot only; once stop was called no further shot begins; stop ends, and when it has returned no shot is in progress.',
 'every interval, task duration and interleaving of stop with the timer loop',
 'depends on timing',
 ['src/UtilsCtrl/Timer/UTimer.h: start, stop','src/GraphCtrl/GraphDaemon/GDaemon.cpp'])
prop('C48','A singleton element is initialised once and destroyed once',
 'However many elements and pipelines share a singleton, its init runs once before any run and its destroy only after the last user is destroyed.',
 'every history of init/run/destroy of all sharing elements',
 'unbounded histories across pipelines',
 [E+'GAdapter/GSingleton/GSingleton.inl: init, run, destroy'])
prop('C49','makeSerial guarantees a run without pool threads',
 'If makeSerial succeeds, running the pipeline executes all elements in dependency order on the calling thread and never hands work to the (empty) pool.',
 'every pipeline for which makeSerial succeeds',
 'all pipelines',
 [PL+'GPipeline.cpp: makeSerial',E+'GElementManager.cpp: checkSerializable',E+'GGroup/GGroup.cpp: isSerializable'])
prop('C50','Trace arrays are duplicate free in first-occurrence order',
 'The trace of a parameter lists each user of the parameter once, in the order of first use.',
 'every sequence of accesses',
 'unbounded sequences',
 ['src/UtilsCtrl/Container/USerialUniqueArray.h: uniqueAdd','src/GraphCtrl/GraphParam/GParam.cpp: addBacktrace, getBacktrace'])
prop('C51','Dynamic engine: a run in which an element fails still returns',
 'After an element reports an error, run always returns: the caller never sleeps for ever.',
 'every DAG, every interleaving, including the point between testing the wait condition and going to sleep',
 'the notification race window is a few instructions wide',
 [E+'_GEngine/GDynamicEngine/GDynamicEngine.cpp: innerExec, fatWait'])
prop('C52','Copying and assigning a status preserves it',
 'A status reports the code and the message it was given when it was built or set; OK has no message. Copying or assigning a status yields a status with the same code and the same message.',
 'every pair of source and target statuses',
 'all pairs of codes and messages',
 ['src/CBasic/CStatus.h: CStatus constructors, operator=, setInfo, setErrorInfo, reset, isOK, isErr, isNotErr'])
prop('C53','Dependencies join elements of one parent',
 'After any history of insertions, removals and groupings every dependency edge joins two elements with the same parent, so that every group can be scheduled on its own.',
 'every finite history of dependency and grouping calls',
 'histories are unbounded',
 [E+'GElement.cpp: GElement::addDependGElements, addElementInfo',E+'GGroup/GGroup.cpp: addElement'])
prop('C54','No exception of any type thrown by user code escapes an element',
 'Whatever exception, of whatever C++ type, a callback of an element throws, processing the element returns a crash status instead of letting the exception propagate into the engine or a worker thread.',
 'every behaviour of the user callbacks, with exceptions of every type',
 'every throw position and type',
 [E+'GElement.cpp: GElement::fatProcessor (catch (const CException&))','src/CBasic/CException.h'])
prop("C55","An execution of a some-group is independent of earlier ones",
 "What one execution of a some-group returns is determined by its own children runs: children of an earlier execution that were still queued or running neither count for it nor execute after the pipeline run they belong to has returned.",
 "every history of executions and every interleaving of left-over children",
 "needs a child that outlives the run that started it at one particular moment",
 [E+"GGroup/GSome/GSome.cpp: run",'src/GraphCtrl/GraphElement/GElementRepository.cpp: reset'])

prop("C56","init and destroy reach every node exactly once and in order",
 "A successful pipeline init checks every element, initialises all parameters, then all events, then every node of the pipeline, nested ones included, exactly once and in registration order, then all daemons; a successful destroy destroys events, daemons, every node exactly once, then parameters.",
 "every tree of nested groups and every set of parameters, events and daemons",
 "unbounded nesting and sizes",
 [PL+'GPipeline.cpp: init, destroy','src/GraphCtrl/GraphElement/GElementManager.cpp: init, destroy','src/GraphCtrl/GraphElement/GGroup/GGroup.cpp: init, destroy'])
prop("C57","A pipeline that accepts run has a thread pool",
 "In every history of API calls, whenever run is accepted by a pipeline with a pool of its own, that pool exists.",
 "every history and every result of the callbacks",
 "every failure position of every callback in unbounded histories",
 [PL+'GPipeline.cpp: destroy',PL+'_GSchedule/GSchedule.cpp: destroy, makeType'])
prop("C58","Failing init and destroy report a status and leave nothing running",
 "Pipeline init and destroy never throw: every failure of a callback is reported as an error status; and after a failed init no daemon is running.",
 "every result of every callback, including crashes",
 "every failure position of every callback",
 [PL+'GPipeline.cpp: init, destroy','src/GraphCtrl/GraphElement/GElementManager.cpp: init, destroy','src/UtilsCtrl/UtilsDefine.h: CGRAPH_FUNCTION_CHECK_STATUS'])

prop("C59","A small vector accepts its own elements",
 "Inserting an element of the vector into the vector itself appends a copy of it, whatever the size of the vector.",
 "every history of operations and every element of the vector",
 "fails only at the sizes where the storage grows, and then reads freed memory, which tests do not observe",
 ['src/UtilsCtrl/Container/USmallVector.h: insert'])
prop("C60","Asking an element for the parameters it used is always safe",
 "After any history of parameter creations, uses and removals, getConcernedGParamKeys lists exactly the keys of the parameters the element obtained in its current round, each once.",
 "every history of create, get, remove and rounds of any elements",
 "reading a removed parameter is undefined behaviour that tests need not observe",
 ['src/GraphCtrl/GraphParam/GParamManagerWrapper.h: getGParam, getConcernedGParamKeys','src/GraphCtrl/GraphParam/GParamManager.cpp: removeByKey',E+'GElement.cpp: fatProcessor'])

prop("C61","A message buffer of size n holds n messages",
 "A topic or connection created with size n keeps n unread messages before a push waits, drops or replaces.",
 "every size, every history",
 "every size and every fill level",
 [TP+'Queue/UAtomicRingBufferQueue.h: isFull, push, setCapacity','src/GraphCtrl/GraphMessage/GMessage.h'])
prop("C62","Senders and receivers never wait in vain",
 "Whatever number of threads send to and receive from one topic: once no thread is about to move, a receiver waits only if no message is stored and a sender waits only if the buffer is full.",
 "every number of threads, every interleaving of pushes, pops, notifications, spurious wake-ups and timeouts",
 "a lost notification needs one particular interleaving",
 [TP+'Queue/UAtomicRingBufferQueue.h: push, waitPopWithTimeout'])

prop("C63","A receive with the wrong type is refused",
 "recvTopicValue or subTopicValue with a type other than that of the value sent does not hand the value out as the wrong type.",
 "every history of topic operations, every pair of types",
 "every pair of types and every history",
 ['src/GraphCtrl/GraphMessage/GMessageManager.h: recvTopicValue, subTopicValue, sendTopicValue, pubTopicValue'])

prop("C64","A thread whose stage round was launched leaves",
 "Once the threshold of its round is reached, every thread waiting in a stage leaves it, whatever the other threads do afterwards.",
 "every threshold, number of threads and interleaving",
 "a lost round shows only under one interleaving",
 ['src/GraphCtrl/GraphStage/GStage.cpp: GStage::waiting'])
prop("C65","Creating a stage takes effect or is refused",
 "createGStage answers OK only if the stage now stored under the key is the one just described; other keys keep their stage.",
 "every key, threshold and earlier history",
 "every history of creations",
 ['src/GraphCtrl/GraphStage/GStageManager.h: create, __create_4py, waitForReady'])
prop("C66","A pipeline added twice is not handed to two users",
 "However often a pipeline is added to a pipeline manager, it is handed out to one user at a time.",
 "every history of manager calls",
 "needs particular histories",
 ['src/GraphCtrl/GraphPipeline/GPipelineManager.cpp: add, fetch, release'])
prop("C67","A failed init of a pipeline manager can be repeated",
 "If init of the manager fails because one pipeline failed, a later init succeeds once all pipelines can be initialised.",
 "every set of pipelines, every pattern of failures",
 "every pattern of failures",
 ['src/GraphCtrl/GraphPipeline/GPipelineManager.cpp: init, destroy','src/GraphCtrl/GraphPipeline/GPipeline.cpp: init'])

prop('C68','Reading into a used object gives the value written',
 'Reading the bytes written for a value into any object of the type gives that value, whatever the object held before.',
 'every type, every value and every former content of the object',
 'depends on what the object held before',
 ['src/UtilsCtrl/Reflection/UReflectionType.h: reflRead','src/UtilsCtrl/Reflection/UReflection.h: read'])
prop('C69','A truncated or foreign buffer is noticed, not misread',
 'Reading a buffer that is not exactly the bytes written for a value of the type (cut off, or written for a type with other field ids) reports an error and reads nothing outside the buffer.',
 'every type, every value, every cut',
 'there are unboundedly many damaged files',
 ['src/UtilsCtrl/Reflection/UReflectionType.h: reflRead','src/GraphCtrl/GraphPipeline/_GStroage/GStorage.cpp: loadBuffer'])

prop('C70','Tasks accepted before destroy are executed',
 'When destroy of the pool returns, every task accepted before has been executed.',
 'every history of submissions and every point at which destroy is called',
 'the number and place of waiting tasks and the moment of destroy are unbounded',
 [TP+'UThreadPool.cpp: destroy, init',TP+'Thread/UThreadBase.h: loopProcess'])
prop('C71','Tasks given to a pool that is not initialised are refused',
 'Giving a task to a pool before init or after destroy reports an error, and the task is not accepted.',
 'every strategy, every history before the call',
 'the histories that lead to an uninitialised pool are unbounded',
 [TP+'UThreadPool.inl: commit, execute, commitWithPriority',TP+'UThreadPool.cpp: init, destroy'])

prop('C72','A task group with a task that throws reports failure',
 'If a task of a group throws, submit does not return OK.',
 'every group, every number of throwing tasks',
 'depends on which task throws and when',
 [TP+'UThreadPool.cpp: submit',TP+'Task/UTaskGroup.h'])
prop('C73','Stopping a timer does not wait for the interval',
 'stop returns without waiting for the rest of the interval, if no shot is in progress.',
 'every interval and every interleaving of stop with the timer thread',
 'the window between the test and the wait is a few instructions wide',
 ['src/UtilsCtrl/Timer/UTimer.h: start, stop'])
prop('C74','A daemon keeps being executed',
 'A daemon that was started is executed again and again until it is stopped, also if one execution throws (or the failure is reported).',
 'every history of a daemon',
 'unbounded histories',
 ['src/UtilsCtrl/Timer/UTimer.h: start','src/GraphCtrl/GraphDaemon/GDaemon.cpp: init'])

prop('C75','The spin lock excludes',
 'If only holders unlock, at most one thread holds the spin lock; tryLock succeeds exactly if nobody holds it, and unlock frees it.',
 'every number of threads and every interleaving',
 'unbounded interleavings',
 [TP+'Lock/USpinLock.h'])
prop('C76','The semaphore counts signals',
 'wait returns only if there were at least as many signals as returned waits, and a signal lets one waiting thread go on.',
 'every history of signals and waits of any number of threads',
 'unbounded interleavings',
 [TP+'Semaphore/USemaphore.h'])
prop('C77','The lock-free ring is a bounded FIFO for one producer and one consumer',
 'With one producer and one consumer the values handed out are those pushed, in order, without loss or repetition; at most capacity minus one wait; tryPop fails only on an empty ring and push waits only on a full one.',
 'every capacity and every interleaving of the atomic accesses',
 'unbounded interleavings',
 [TP+'Queue/ULockFreeRingBufferQueue.h'])
prop('C78','The lock-free ring is safe for several producers and consumers',
 'The same holds for any number of producers and consumers.',
 'every capacity and every interleaving of the atomic accesses',
 'unbounded interleavings',
 [TP+'Queue/ULockFreeRingBufferQueue.h'])

prop('C79','Events sent with the destroy strategy are executed before destroy returns',
 'A notification with the destroy strategy that returned before destroy was called has been executed when destroy returns.',
 'every history of notifications and every interleaving of the pool',
 'depends on how busy the pool is when destroy is called',
 ['src/GraphCtrl/GraphEvent/GEvent.cpp: fatDestroy, asyncWait','src/GraphCtrl/GraphPipeline/GPipeline.cpp: destroy','src/GraphCtrl/GraphPipeline/_GSchedule/GSchedule.cpp: destroy'])
prop('C80','No event is triggered after its pipeline was deleted',
 'Once the pipeline is deleted, none of its events is triggered, whatever notifications were sent before.',
 'every history that ends with destroy and deletion, every interleaving of the pool',
 'use after free shows only under unlucky timing',
 ['src/GraphCtrl/GraphEvent/GEvent.cpp: asyncProcess, fatDestroy','src/GraphCtrl/GraphPipeline/GPipeline.cpp: ~GPipeline'])

prop('C81','No element body outlives its run, and bodies of one element never overlap',
 'When run has returned no element body that it started is still being executed, so that two bodies of the same element are never executed at the same time.',
 'every timeout strategy, every finishing order and every later run',
 'depends on timing across runs',
 [E+'GElement.cpp: asyncRun',E+'GElementRepository.cpp: reset'])

prop('C82','Performance analysis leaves nothing behind, whatever the run did',
 'When perf returns, with or without error, the aspects of every element are those that the user added, and none of them uses freed memory.',
 'every pipeline and every run, including runs that fail and runs in which a body adds an aspect',
 'needs a failure, or an addition, in the middle of the analysed run; the damage shows in later runs',
 [PL+'_GPerf/GPerf.cpp: perf, inject, recover', E+'GElement.cpp: popLastAspect', E+'GElement.inl: addGAspect'])

prop('C83','A singleton element works with the parameters of the pipeline that runs it',
 'Whenever a pipeline runs a singleton element, the parameters, events and stages the element sees are those of that pipeline.',
 'every history of registrations, inits, runs, destroys and deletions of all pipelines that share the singleton',
 'unbounded histories across pipelines; tests use one pipeline',
 [E+'GAdapter/GSingleton/GSingleton.inl: addManagers, run'])
prop('C84','A lazily created object is created once',
 'However many threads ask for the lazily created global object (the message manager) at the same time, it is created once, every one of them gets that object, none waits for ever, and no access races with the creation.',
 'every interleaving of any number of threads',
 'depends on the schedule of the first calls',
 ['src/UtilsCtrl/Singleton/USingleton.h: get, create', 'src/GraphCtrl/GraphMessage/GMessageManagerSingleton.h: get'])

prop('C85', 'A mutable group follows its latest reshape',
  'Each execution of a mutable group runs exactly the children that this execution made visible in reshape(), each of them as often as the loop it was given there, after everything that reshape() linked before it; dependencies, visibility and loops of earlier executions have no influence, and an error that is returned is the error of a child that was made visible. If reshape() fails nothing is executed.',
  'all states left by earlier executions, all sets of children, all sequences of reshape operations on them without a cycle, all results of the children, all schedules of the engine',
  'the reshape operations are user code run before every execution; a test tries a few of them in a few orders',
  [E+'GGroup/GMutable/GMutable.cpp: GMutable::run, GMutable::setup', E+'GElementManager.cpp: GElementManager::process', E+'GElement.cpp: operator>, operator--, operator*, setVisible'])
prop('C86', 'A reshape with a cycle is reported and executes nothing',
  'If reshape() of a mutable group links its children in a cycle, the execution of the group returns an error and no child is executed.',
  'all states left by earlier executions, all cyclic reshapes',
  'the outcome depends on what earlier executions left in the engine; a test with a single execution always passes',
  [E+'GElementManager.cpp: GElementManager::process', E+'_GEngine/GDynamicEngine/GDynamicEngine.cpp: setup, serialRunAll'])

prop('C87', 'A fence returns only when the bodies it waits for have ended, and reports their errors',
  'A fence that was told to wait for some elements returns only after the latest body of each of these elements has ended, even if it outlasted its timeout; it returns an error if one of the late bodies ended with one, and then the run of the pipeline fails; if all ended well the fence returns OK. The results of the bodies are never used by two threads at once.',
  'all pipelines with timeouts and fences, all interleavings of element threads, bodies, fences and the owner, all runs of one pipeline',
  'whether a body outlasts its timeout and ends before, during or after the fence depends on the schedule; data races do not show in results',
  [E+'GAdapter/GFence/GFence.cpp', E+'GElement.cpp: asyncRun, getAsyncResult', E+'GElementRepository.cpp: reset'])

prop('C88', 'Everything a pipeline makes is released exactly once, with the pipeline',
  'Whatever elements and groups are created and registered through a pipeline, accepted or refused, and however it was initialised, run and destroyed, removing the pipeline (or clearing the factory) deletes each of them exactly once; nothing is deleted before, nothing stays allocated after, and no call ever uses an element or a pipeline that has been deleted.',
  'all programs of factory, create, register, init, run, destroy, remove and clear calls, over any number of pipelines',
  'ownership mistakes depend on the whole history of calls over several pipelines and do not show in return values',
  [PL+'GPipeline.inl: registerGElement, createGNode, createGGroup', PL+'GPipeline.cpp: registerGNode, registerGGroup, innerRegister, ~GPipeline', PL+'GPipelineFactory.cpp', E+'GElementRepository.cpp: insert, fetchAll, ~GElementRepository'])

prop('C89', 'dump shows the pipeline as it is',
  'GPipeline::dump writes a well-formed graphviz text that declares every element registered in the pipeline, at any depth, exactly once and inside the block of the group it belongs to, and nothing else; its edges are exactly the dependencies, the order inside clusters and the numbered choices of conditions; labels are the names (or addresses), loops and measured times; red marks the longest path. Writing it does not change the pipeline or the formatting of the stream.',
  'all pipelines: all trees of groups of every class, names, loop counts, dependencies and measurements',
  'the text depends on the shape of the whole pipeline at any depth and on arbitrary names; a test looks at a few pipelines',
  [PL+'GPipeline.cpp: GPipeline::dump', E+'GElement.cpp: dump, dumpEdge, dumpElement, dumpElementHeader, dumpPerfInfo', E+'GGroup/GGroup.cpp: dumpGroupLabelBegin, dumpGroupLabelEnd', E+'GGroup/GCluster/GCluster.cpp: dump', E+'GGroup/GCondition/GCondition.cpp: dump', E+'GGroup/GRegion/GRegion.cpp: dump', E+'GGroup/GSome/GSome.cpp: dump'])

prop('C90', 'A refused registration changes nothing',
  'If registering an element returns an error or throws, the pipeline is what it was before the call: the same elements with the same names, loops and dependencies, and every later run behaves as if the call had not been made.',
  'all states of a pipeline, all calls, all programs of registrations, all later runs',
  'what a refused call leaves behind shows only in later runs, depends on the order of pointers in a set, and on the schedule',
  [PL+'GPipeline.inl: registerGElement', PL+'GPipeline.cpp: innerRegister, registerGNode, registerGGroup', E+'GElement.cpp: addElementInfo, addDependGElements, setLoop', E+'_GEngine/GDynamicEngine/GDynamicEngine.cpp: mark, fatWait'])

prop('C91','The task queues neither lose, duplicate nor reorder tasks, whatever the interleaving',
 'Any number of threads push, take, steal, wait with a time limit and reset on one task queue. Every call behaves as if it took effect at one moment between its call and its return, on a plain double-ended queue: taking returns the oldest tasks, stealing the youngest, a call that reports failure changes nothing, pushes do not fail. So every task that was pushed is handed out at most once and is either handed out or still queued, and without stealing in the order of pushing. No deadlock: all calls can come to their end. No lost wake-up: nobody keeps sleeping in front of a task while every other thread is done. The accesses to the container are ordered by the mutex (no data race).',
 'every number of threads, every sequence of calls with every batch, every interleaving of the single accesses to mutex, container, flag and condition variable, every choice of the woken thread, spurious wake-ups and time limits included',
 'A test sees a few interleavings on one machine; a lost wake-up or a doubly handed out task needs a particular order of single steps.',
 [TP+'Queue/UWorkStealingQueue.h: push, tryPush, tryPop, trySteal', TP+'Queue/UAtomicQueue.h: push, tryPop, popWithTimeout, reset'])

prop('C92','An aspect that was begun is finished',
 'In every init, run and destroy of an element each of its aspects sees begin and finish in turn: no finish without its begin, no second begin before the finish. Every begin that succeeded is followed by its finish (or, in a crash, by the notice of the crash), whatever the other aspects and the body do, so that an aspect may acquire something in begin and release it in finish.',
 'every element, every number of aspects, every loop number, every behaviour of aspects and bodies (statuses, exceptions, hold) as a function of everything that happened before',
 'A test uses one order of aspects and one failure; the claim is about every combination of failing aspects, bodies and loop rounds.',
 ['src/GraphCtrl/GraphAspect/GAspectManager.cpp: reflect', E+'GElement.cpp: fatProcessor, doAspect'])

prop('C93','Coordinators change the number of secondary threads as asked',
 'A coordinator (or the pool calls behind it) with a positive size adds that many secondary threads, bounded by the room of the pool; with a negative size it stops that many, or reports an error and stops none. Calls made at the same time act as if one followed the other; every call returns, the program does not crash, and threads that were stopped make room for new ones.',
 'every set of callers, every sequence and interleaving of creations, releases and sweeps of the monitor, every behaviour of the tasks, every room',
 'the calls race with each other, with the monitor and with the exit of the threads; the failures need a stopped thread to be still in a task or a call to come from such a thread',
 [E+'GAdapter/GCoordinator/GCoordinator.inl: run', TP+'UThreadPool.cpp: createSecondaryThread, releaseSecondaryThread, monitor', TP+'UThreadPool.inl: commitWithPriority', TP+'Thread/UThreadSecondary.h: freeze, loopProcess'])

prop('C94','A run with nested groups ends, however few threads the pool has',
 'A thread of the pool that executes a region or a parallel multi-condition waits in it until all of its children are finished, and the children are given to the same pool. Whatever the nesting, the dependencies, the queues the tasks are put into and the threads that take them: the run of the pipeline never gets stuck; it ends after finitely many actions with every element executed exactly once, children inside of their group and after their dependencies.',
 'all trees of elements with acyclic dependencies, all numbers of threads and all rules which thread serves which queue, all placements of tasks, all schedules',
 'a test runs a few shapes of pipelines on one machine; getting stuck needs all threads to be waiting at the same moment, which depends on the schedule and on the number of groups compared with the number of threads',
 [E+'_GEngine/GDynamicEngine/GDynamicEngine.cpp: commonRunAll, parallelRunAll, fatWait, afterElementRun', E+'GGroup/GRegion/GRegion.cpp: run', TP+'UThreadPool.inl: execute', TP+'Thread/UThreadPrimary.h: processTask, processTasks'])

prop('C95', 'Once a pipeline is initialised, the settings of its elements are fixed and its nodes may spawn tasks',
     'From a successful init() of a pipeline until destroy(), whatever is called in between, every call that changes the settings of one of its elements at any depth (name, loop, level, visibility, binding, timeout, macro, dependences, element parameters, the functions of a GFunction) is refused with an exception or an error status and changes nothing (elements directly in a GMutable may still change loop, visibility and dependences), and GNode::spawn called by a node hands the tasks to the thread pool instead of refusing them.',
     'every tree of groups, every history of calls, every answer of the callbacks', 'Trees of groups and histories of calls are unbounded; a test sees one nesting and one moment.',
     [E + 'GElement.cpp: setName, setLoop, setLevel, setVisible, setBindingIndex, setTimeout, setMacro, addDependGElements, removeDepend', E + 'GElement.inl: addEParam', E + 'GElementManager.cpp: init, destroy', E + 'GGroup/GGroup.cpp: init, destroy', E + 'GGroup/GRegion/GRegion.cpp: init', E + 'GNode/GNode.cpp: spawn', E + 'GAdapter/GFunction/GFunction.cpp: setFunction'])

prop('C96', 'A checked distance calculation never reads outside its vectors',
     'With the checking flag of UDistanceCalculator switched on, calculating the Euclidean or cosine distance of two vectors of any lengths never reads outside them: if the lengths differ or a vector is empty, an error is returned and the result is left as it was; otherwise the status is OK.',
     'all number types, all vectors and lengths below 2^64', 'Out-of-bounds reads depend on lengths; a test that reads past the end usually still passes.',
     ['src/UtilsCtrl/Distance/UDistance.inl: check', 'src/UtilsCtrl/Distance/Common/UEuclideanDistance.h: calc, check', 'src/UtilsCtrl/Distance/Common/UCosineDistance.h: calc', 'src/UtilsCtrl/Distance/UDistanceCalculator.h: calculate'])

prop('C97', 'A batch of distances is the list of single distances',
     'Calculating the distances of a query to a list of vectors returns one result per vector in the order of the list, each being the result of the single calculation (0 where that was refused), and as status the first error among them; with the checked Euclidean distance no list of vectors makes it undefined.',
     'every distance class, every query and list of vectors', 'The list is unbounded and an error may occur at any place.',
     ['src/UtilsCtrl/Distance/UDistanceCalculator.h: calculate'])

prop('C98', 'The Euclidean distance is a metric',
     'On vectors of equal length over the real numbers, the Euclidean distance returned is not negative, zero exactly for equal vectors, symmetric, and satisfies the triangle inequality; without the square root it is the square of that number.',
     'all real vectors of one length (exact arithmetic)', 'Infinitely many vectors.',
     ['src/UtilsCtrl/Distance/Common/UEuclideanDistance.h: calc', 'src/UtilsCtrl/Distance/UDistanceCalculator.h: calculate'])

prop('C99', 'Cosine lies between -1 and 1, and normalize gives vectors of length 1',
     'For two vectors that are not zero the cosine distance is symmetric, lies between -1 and 1 and is 1 for a vector and itself; normalize reports OK only if the vector has become one of length 1 with the same direction.',
     'all vectors over the real numbers and the integers (exact arithmetic)', 'Infinitely many vectors.',
     ['src/UtilsCtrl/Distance/Common/UCosineDistance.h: calc', 'src/UtilsCtrl/Distance/UDistance.inl: normalize', 'src/UtilsCtrl/Distance/UDistanceCalculator.h: normalize'])

prop('C100', 'An ann node calls the function its prepareParam names, and no other',
     'When an ann node runs, prepareParam is called first; if it returns one of the eight function types exactly the function of that name is called, once, and refreshParam exactly if that succeeded; any other value, whatever it is, gives an error and nothing else is called; the first failure is the result, and no value leads to undefined behaviour.',
     'every value of the enumeration type and every behaviour of the functions', 'The underlying type admits all integers and the functions may fail or throw in any combination.',
     ['src/DomainCtrl/Ann/DAnnNode.cpp: DAnnNode, run', 'src/DomainCtrl/Ann/DAnnDefine.h: D_ANN_FUNC_TYPE'])

prop('C101', 'Elements of a lower level are initialised and destroyed first',
'When setLevel has given one element a lower level than another element of the same pipeline or group, a successful init of the pipeline initialises the first, with everything in it, before the second, and a successful destroy destroys it first.',
'all programs of createGNode, createGGroup, setLevel, register calls (any number of elements, groups nested to any depth, any levels, any order), all callbacks',
'A test uses a few elements at given addresses, and elements of equal level are ordered by address, so that a wrong order may look right by chance; when the order of a set is destroyed the later behaviour is undefined and may look fine.',
[E+'GElementSorter.h: GElementSorter', E+'GElement.cpp: setLevel', E+'GElementManager.cpp: init, destroy, add', E+'GGroup/GRegion/GRegion.cpp: addElementEx', E+'GGroup/GGroup.cpp: init, destroy, addElement', PL+'GPipeline.cpp: innerRegister'])

prop('C102','process(n) is one init, n complete runs and one destroy, with any engine and any schedule',
'Whatever dependency calls built the graph, whichever engine is chosen and however its threads are scheduled in each run, a call of process(n) that nobody cancels does the following and nothing else to the elements: it initialises nodes, then executes at most n rounds, then destroys nodes. In every round no element starts twice and none starts before all its dependencies have finished in that round without error; all rounds but the last are complete, i.e. every element of the pipeline starts and finishes exactly once without error. No round starts unless every node at any nesting depth has been initialised once. If process reports success there were exactly n rounds, all complete, between one init and one destroy of every node. On a cyclic graph process fails and no node is initialised, run or destroyed. Conversely, on an acyclic graph, if no call of user code reports an error, process reports success.',
'all histories of dependency calls, all trees of elements (groups nested to any depth), the three engines and the three paths of the dynamic one, all results of the elements, all schedules of every run, all n',
'It combines the life cycle of the pipeline, the analysis of the graph and the engines; a test fixes the graph, the engine, n and whatever schedules happen, while a wrong order or a lost element may need a particular schedule in a particular round.',
[PL+'GPipeline.cpp: init, run, destroy, process', E+'GElementManager.cpp: init, initEngine, run, destroy', E+'_GEngine/GTopoEngine/GTopoEngine.cpp', E+'_GEngine/GStaticEngine/GStaticEngine.cpp', E+'_GEngine/GDynamicEngine/GDynamicEngine.cpp'])

prop('C103','Elements that run at the same time may create, look up, list and remove parameters',
'Elements which run at the same time may call createGParam, getGParam, removeGParam and getGParamKeys freely. Every execution is equivalent to the same calls made one after the other: each call takes effect once, between its start and its return, with the answer that the earlier calls require; no call blocks for ever; and an object that was returned by getGParam may be used.',
'all numbers of threads, all sequences of calls by each of them, all interleavings of the single accesses to the map of parameters',
'A lookup that overlaps with an insertion which rehashes the map needs a schedule a test cannot force; most runs of such a program give the expected answers.',
['src/GraphCtrl/GraphParam/GParamManager.inl: GParamManager::create, GParamManager::get', 'src/GraphCtrl/GraphParam/GParamManager.cpp: removeByKey, getKeys, __create_4py, __remove_4py, __has_4py', 'src/GraphCtrl/GraphParam/GParamManagerWrapper.h: createGParam, getGParam, removeGParam'])

prop('C104','Every element has one place in the pipeline',
'However createGNode, createGGroup and the register calls are combined: every element is either inside of exactly one group or registered at the pipeline, or unused. The init of a pipeline therefore reaches every registered element, and every element inside of one at any depth, exactly once; getRelation tells the group an element is in, and the children of every group are the elements it was made of. A call that would give an element a second place is refused.',
'all sequences of creating and registering calls, all nestings of groups of any depth and width, also refused calls in between',
'A test fixes a few nestings; that no sequence of accepted calls makes two places, and that the walk over the groups ends and meets every element once, is a statement about all of them.',
[PL+'GPipeline.inl: registerGElement, createGNode, createGGroup', PL+'GPipeline.cpp: registerGNode, registerGGroup, innerRegister, __registerGElement_4py', E+'GGroup/GGroup.cpp: addElement, init, addManagers, __addGElements_4py', E+'GElement.cpp: getRelation, getDeepPath'])

prop('C105','A passed parameter is copied',
'An aspect, daemon, event, stage or element that is given a parameter works with a copy of its own, made by the clone method at the time of the call: what the caller does with the object afterwards (writing it, deleting it, passing it on) is not seen, aspects that one call adds to many elements do not share anything, a null pointer leaves the parameter as it was, a parameter asked for with another type is not found, and any parameter, also the one held already, may be passed. Every copy is deleted exactly once, at the latest with the pipeline.',
'all clone methods, all sequences of calls that make, write and delete objects, add aspects, daemons, events, stages and local parameters, read and replace their parameters, and delete the pipeline',
'Aliasing and lifetime errors show only for particular orders of passing, writing and deleting; a test sees a few of them, and a use after free may well go unnoticed.',
['src/GraphCtrl/GraphAspect/GAspectObject.inl: setAParam, getAParam', 'src/GraphCtrl/GraphDaemon/GDaemonObject.inl: setDParam', 'src/GraphCtrl/GraphEvent/GEventManager.inl: createWithParam', 'src/GraphCtrl/GraphStage/GStage.inl: setSParam', 'src/GraphCtrl/GraphStage/GStageManager.h: create', E+'GElement.inl: addGAspect, addEParam, getEParam', PL+'GPipeline.inl: addGAspect, addGDaemon, addGEvent, addGStage'])

prop('C106','A task given to a thread stays near it',
'A task that is submitted with the index of a primary thread is executed by that thread or by a primary thread that may steal from it, never by a secondary one; a task submitted with the long time strategy or with a priority is executed by a secondary thread, never by a primary one. If stealing is switched off, the task is executed by the thread it was given to, and the tasks given to a thread are executed in the order in which they were given, whatever the thread takes from the pool in between.',
'all configurations of the pool, all interleavings of calls and thread steps, all outcomes of the try-locks, all numbers of threads that come and go',
'Which thread gets a task depends on the interleaving of all threads and on try-locks that fail by chance; a test sees a few of the schedules.',
[TP+'UThreadPool.cpp: dispatch, init', TP+'UThreadPool.h: commit, commitWithTid, executeWithTid, commitWithPriority', TP+'UThreadPool.inl: execute, executeWithTid', TP+'Thread/UThreadPrimary.h: popTask, stealTask, buildStealTargets', TP+'Thread/UThreadSecondary.h: processTask'])

prop('C107','An asynchronous run is a run, and does not disturb others',
'asyncRun and asyncProcess give a future whose result is that of run and process, whatever the user thread does meanwhile: if the pipeline is used further before the future is asked, the calls are refused or wait, so that bodies of one element never overlap, parameters are not reset under a run, and no body starts after destroy returned. A deferred call is made when its future is asked, with the state of that time, and never if the future is dropped; dropping the future of an asynchronous call waits for it.',
'all pipelines, all answers of the user code, all programs of calls and futures, all interleavings of the user thread and the threads of the futures',
'The outcome depends on how two threads interleave inside the library; tests ask the future at once or see only the usual interleaving.',
[PL+'GPipeline.cpp: asyncRun, asyncProcess, init, run, destroy, process', PL+'GPipeline.h: asyncRun, asyncProcess'])

prop('C108','A bound element is executed by the thread it is bound to',
'When an element has been given a binding index with setBindingIndex, its body starts in the primary thread of the pool with that index, or in one that may steal from it (with stealing switched off: in that thread); with the index of the long time strategy in a secondary thread; never in the thread that called run. This holds whatever others give to the pool. The engine and the pool do not hinder each other.',
'all graphs, bindings, configurations of the pool, statuses returned by elements, other users of the pool, and all interleavings',
'Which thread takes a task depends on timing; tests cannot force the unlucky thief, and the answer differs from one kind of graph to the other.',
[E+'_GEngine/GDynamicEngine/GDynamicEngine.cpp: process, innerExec, parallelRunAll', TP+'UThreadPool.inl: execute, executeWithTid', E+'GElement.h: setBindingIndex'])

prop('C109','A run on the pool returns',
'A run of a pipeline on its initialised thread pool returns, with OK and every element executed once, as long as the threads of the pool and the caller go on taking steps, no element reports an error, the pool is not being destroyed, tasks for long time threads have such a thread, and failed attempts to look into a queue, spurious wakeups and tasks given by others are finitely many. The engine and the pool cannot block each other: none of their threads that has something to do can be kept from doing it.',
'all acyclic graphs, bindings, pool configurations, states reached by any use of the engine and the pool before, and all fair schedules after',
'Returning is a statement about all infinite schedules: a test that returns shows one, and a test that hangs shows nothing about when it will not.',
[E+'_GEngine/GDynamicEngine/GDynamicEngine.cpp: commonRunAll, process, afterElementRun, fatWait', TP+'UThreadPool.inl: execute', TP+'Thread/UThreadPrimary.h: run, processTask', TP+'Thread/UThreadSecondary.h: run, processTask'])

prop('C110','Runs of the static engine on the pool',
'A run of a pipeline with the static engine on its thread pool: a macro without a binding index is executed by the thread that called run, every other element by a thread of the pool that its binding index permits. The run returns whatever the elements answer, as long as the threads of the pool and the caller go on taking steps: with OK and every element executed once if no element reports an error, and not with OK otherwise. When it returns no thread is inside an element and nothing of the run is left in the pool.',
'all acyclic graphs, bindings, pool configurations, other users of the pool, statuses of elements, histories of runs before, and all fair schedules',
'Which thread takes a task, and whether the run returns, depends on the schedule of every thread of the pool and on what others put into its queues.',
[E+'_GEngine/GStaticEngine/GStaticEngine.cpp: run', TP+'UThreadPool.inl: commit, commitWithTid, execute', TP+'Thread/UThreadPrimary.h: run, processTask', TP+'Thread/UThreadSecondary.h: run, processTask'])

prop('C111','Runs of independent elements on the pool',
'A run of a pipeline whose elements do not depend on each other, with the dynamic engine on its thread pool. The elements are cut into rows: those of a row with several elements are executed by the thread with the number of the row or one that may steal from it, an element alone in its row by a thread its binding index permits. Giving the rows to the pool never is undefined and leaves no queue locked, whoever else uses the pool. The run returns whatever the elements answer, as long as the threads of the pool and the caller go on taking steps: with OK and every element executed once if none reports an error, with the error of an element otherwise. After OK nothing of the run is left in the pool.',
'all sets of independent elements, rows, bindings, pool configurations, other users of the pool, statuses of elements, histories of runs before, and all fair schedules',
'The calls lock queues of threads of the pool across several calls; whether a thread, the caller or another user waits for ever depends on the schedule of all of them.',
[E+'_GEngine/GDynamicEngine/GDynamicEngine.cpp: parallelRunAll, parallelRunOne', TP+'UThreadPool.inl: executeWithTid, execute', TP+'Thread/UThreadPrimary.h: pushTask, run', TP+'Queue/UWorkStealingQueue.h: push'])

prop('C112','What load leaves in the pipeline',
'load of a stored pipeline reports success only if every class that the file names is registered and of the right kind, every dependency it names is in the file and in the same group as the element that names it, and the configuration of the pool makes sense. It then adds all of the file to the pipeline. If it does not report success, the pipeline is as it was before.',
'all files, pipelines loaded into (new or not), and registered classes',
'There are as many ways to stop as there are classes, elements and dependencies in a file; tests try a file that was just saved and a new pipeline.',
[PL+'_GStroage/GStorage.cpp: load, loadBuffer, loadElement, loadEvent, loadParam, loadDaemon, loadStage, loadAspect, loadEParam', PL+'GPipeline.cpp: load, innerRegister, setUniqueThreadPoolConfig', TP+'UThreadPoolConfig.h: check'])

prop('C113','Daemons from init to deletion',
'Between calls, the daemons of a pipeline are executed, again and again, exactly while the pipeline is initialised: once init has succeeded every daemon is executed at its interval, once destroy has returned none is. No daemon is executed while it is being deleted with its pipeline. init, destroy and deletion return.',
'all numbers of daemons, intervals, sequences of init, destroy and delete, results of the other parts of them, and schedules of the timers',
'The daemons run on their own threads: whether one is in its task at the moment of a destroy or delete depends on the schedule.',
['src/GraphCtrl/GraphDaemon/GDaemonManager.cpp: init, destroy, clear', 'src/GraphCtrl/GraphDaemon/GDaemon.cpp: init, destroy', PL+'GPipeline.cpp: init, destroy, ~GPipeline', 'src/UtilsCtrl/Timer/UTimer.h: start, stop, ~UTimer'])

prop('C114','The result of a run does not depend on engine or schedule',
'If elements that touch the same data, one of them writing, depend on each other directly or not, then a run leaves the same data and every element reports the same status with every engine, every schedule and every assignment to threads: those that executing the elements one after another, in any order that respects the dependencies, would leave and report. In particular either every run on given data succeeds or none does. trim does not change this.',
'all acyclic graphs, programs of the elements (reads, writes, statuses that depend on what was read), initial data, engines, interleavings of single reads and writes, and numbers of runs',
'The number of interleavings of reads and writes of a few elements is beyond any test; tests see the schedules of the machine they run on.',
[E+'_GEngine/GDynamicEngine/GDynamicEngine.cpp: run, process, afterElementRun', E+'_GEngine/GStaticEngine/GStaticEngine.cpp: run', E+'_GEngine/GTopoEngine/GTopoEngine.cpp: run', E+'GElement.cpp: fatProcessor', 'src/GraphCtrl/GraphParam/GParamManagerWrapper.h: getGParam'])

prop('C115','When run has returned, nothing of it is still going on',
'When run() of a pipeline has returned, whatever it returned, no element of it is being executed and none starts any more until run() is called again: parameters are reset, run is called again, elements are destroyed and deleted only while no element is being executed.',
'all acyclic graphs, statuses of elements, engines, numbers of threads, own and shared thread pools, sequences of run, destroy and deletion, and schedules',
'Whether something of a run is left depends on which thread is how far at the moment an element fails; a test sees a few schedules and does not look at what happens after run has returned.',
[PL+'GPipeline.cpp: run, destroy, ~GPipeline', PL+'_GSchedule/GSchedule.cpp: destroy', E+'_GEngine/GDynamicEngine/GDynamicEngine.cpp: innerExec, afterElementRun, fatWait, parallelRunOne', E+'_GEngine/GStaticEngine/GStaticEngine.cpp: run', TP+'UThreadPool.cpp: destroy'])

prop('C116','Order, completeness and errors at every depth of nesting',
'In a pipeline whose elements are groups inside of groups (regions, clusters, conditions, multi-conditions, loops): if a group orders child a before child b, then nothing anywhere inside b starts before a has ended without error, and not while anything inside a is executing; an element starts only while all groups around it are executing or have failed, and only when nothing inside it is still executing; a group that ends without error has executed its children completely and nothing inside it, at any depth, has failed or is still executing; an error at any depth makes every group around it fail, and the code a failing element reports was reported by user code inside of it during this execution.',
'all trees of groups of any depth, all engines for each region, all results of nodes and of code of groups, any number of runs, all interleavings',
'The number of shapes of nested groups and of schedules across levels is unbounded; tests nest two or three levels and rarely fail in the innermost one while siblings are executing.',
[E+'GGroup/GRegion/GRegion.cpp: run', E+'GGroup/GCluster/GCluster.cpp: run', E+'GGroup/GCondition/GMultiCondition.inl: serialRun, parallelRun', E+'GElement.cpp: fatProcessor', E+'GElementManager.cpp: run'])

prop('C117','The data that a run of nested groups leaves do not depend on engines and schedules',
'In a pipeline of groups inside of groups in which nodes that touch the same data (one of them writing) are ordered by some group around them (by dependencies at any level, or by a sequence), a run that succeeds leaves the data that the nodes leave when they are executed one after another in any order the groups allow; two runs from the same data, with any engines in the pipeline and its regions and in any schedules, both succeed or both fail, and leave the same data and statuses if they succeed; a later run of the pipeline does nothing that a first run could not do.',
'all trees of groups, programs of nodes without unordered conflicts, initial data, engines of every region, interleavings of reads and writes, and numbers of runs',
'Schedules across levels of nesting are unbounded, and a lost ordering shows only in rare ones.',
[E+'GGroup/GRegion/GRegion.cpp: run', E+'GElement.cpp: fatProcessor', E+'GGroup/GCluster/GCluster.cpp: run', 'GraphCtrl/GraphParam/GParamManager.h: get', E+'_GEngine/GDynamicEngine/GDynamicEngine.cpp: run'])

prop('C118','An accepted setting takes effect, changes nothing else, and holds until the next accepted one',
'Whatever a program configures, initialises, runs and destroys: a call on an element (name, loop, level, visibility, binding, timeout, macro, dependences, element parameters, aspects, functions of a GFunction) that is accepted sets what it names and nothing else, one that is refused changes nothing, and every setting is the one given by the last accepted call on that element. An element that is not initialised refuses only a loop count other than one together with a time limit, a negative time limit, a time limit with a loop count above one, a group as macro, and the removal of a dependence it has not; so an element never has both a time limit and a loop count above one.',
'all histories of calls on a pipeline and its elements, all values',
'The settings depend on unbounded histories of accepted and refused calls in every phase of the pipeline.',
[E+'GElement.cpp: setName, setLoop, setLevel, setVisible, setBindingIndex, setTimeout, setMacro, addDependGElements, removeDepend', E+'GElement.inl: addGAspect, addEParam', E+'GAdapter/GFunction/GFunction.cpp: setFunction'])

prop('C119','An accepted registration does what it says and nothing else',
'A registration of an element is accepted exactly when neither the pipeline nor the element is initialised, the element may be registered this way (a new node; a group of the named class that is not registered; an element outside of all groups that is not registered), every dependence is a non-null element with the same parent, and an element with a time limit gets the loop count one. It then puts the element into the pipeline once, with the name, loop count and dependences of the call, and changes nothing of any other element. After any program of registrations the pipeline has exactly the elements of the accepted calls, each once.',
'all states of a pipeline, all calls, all programs of calls',
'Which calls are accepted and what they leave depends on unbounded sequences of earlier calls.',
[PL+'GPipeline.inl: registerGElement', PL+'GPipeline.cpp: registerGNode, registerGGroup, innerRegister', E+'GElement.cpp: addElementInfo, addDependGElements, setLoop, setName'])

prop('C120','Waiting for events ends',
'As long as run() is waiting for events or destroy() has not returned, this call can make a step itself, or a trigger that the pool holds can be started or finished, whatever was notified with whatever strategy; once no more calls are made, only finitely many steps remain. So run() and destroy() return, and no notify stays blocked.',
'all events, histories of run, destroy and notify calls from any threads, and schedules',
'A lock held while waiting for a future can block in rare schedules only.',
['GraphCtrl/GraphEvent/GEvent.cpp: asyncProcess, asyncWait, fatDestroy', 'GraphCtrl/GraphEvent/GEventManager.cpp: reset, destroy', PL+'GPipeline.cpp: run, destroy'])

prop('C121','Pipelines that share a thread pool do not notice each other, and all of them return',
'For any number of pipelines that use one thread pool (setSharedThreadPool) and run at the same time, with others giving tasks to the pool as well: elements of each pipeline start after their dependences and at most once per run, OK means that all of its elements ran once without error, an error that is reported comes from one of its own elements, and errors of other pipelines do not reach it; an element with a binding index starts in the thread it asks for or in one that may steal from it; a thread is never inside two elements. As long as everyone gets to act from time to time, every active run whose elements report no error returns OK with all its elements executed, after a bounded number of rounds, and nobody can be kept from acting: the pipelines do not deadlock each other.',
'all numbers of pipelines, acyclic graphs, binding indexes, pool configurations, other users of the pool, histories of runs and schedules',
'The pipelines meet in the queues of the pool in any interleaving; tests see a few.',
[PL+'GPipeline.cpp: setSharedThreadPool', PL+'_GSchedule/GSchedule.cpp: init, makeType, getThreadPool', E+'_GEngine/GDynamicEngine/GDynamicEngine.cpp: process, innerExec, afterElementRun, fatWait', TP+'UThreadPool.inl: execute'])

prop('C122','getRelation tells how the pipeline was put together',
'While a pipeline is being put together, in every history of making, grouping, registering, adding and removing dependencies: b is listed as predecessor of a exactly if a is listed as successor of b, no element is its own, nothing is listed twice; the predecessors are exactly those that accepted calls asked for and did not take back (so that a refused call leaves no trace); an element is listed as a child of a group exactly if it belongs to it, and the children are those the group was made of, in this order.',
'all histories of calls before init, all elements and groups, all nestings',
'Each list is kept in a different object and changed by different calls; only some orders of calls are tested.',
[E+'GElement.cpp: getRelation, addDependGElements, removeDepend', E+'GElementRelation.h: GElementRelation', E+'GGroup/GGroup.cpp: addElement', PL+'GPipeline.cpp: innerRegister'])

prop('C123','What an element wrote is seen by those that depend on it and by the caller',
'In the sense of the C++ memory model, in every run of the dynamic engine on a thread pool: whatever an element did happens before the start of every element that depends on it, directly or not; whatever the caller did before run happens before every element; whatever the elements did happens before the return of run; and the engine itself accesses its shared status without a data race.',
'all graphs, all schedules of caller and workers, all runs, all results of the elements',
'A missing happens-before edge usually does no harm on the machine the tests run on; it needs the right interleaving, compiler and processor to show.',
[E+'_GEngine/GDynamicEngine/GDynamicEngine.cpp: commonRunAll, process, innerExec, afterElementRun, fatWait, prepareRun', E+'GElement.cpp: refresh', TP+'Queue/UAtomicQueue.h: push, tryPop'])

prop('C124','run returns although elements nobody waits for go on to notify events',
'When the engine has returned, with an error or because elements were given up after a timeout, and such elements are still running on the thread pool and notify events there, run still ends its waiting for events and returns.',
'all numbers of pool threads, all sets of events in all orders of the map, all notifications, all schedules of the caller and the pool',
'It takes as many left-over elements as the pool has threads, each stopped between two steps of a notification, at the moment run waits for the same event.',
['src/GraphCtrl/GraphEvent/GEvent.cpp: asyncProcess, asyncWait', 'src/GraphCtrl/GraphEvent/GEventManager.cpp: reset, trigger', PL+'GPipeline.cpp: run', E+'GElementRepository.cpp: reset', E+'GElement.cpp: asyncRun'])

prop('C125','dependencies, calls and returns order memory in the static engine and the parallel path',
'On the static engine, what an element did is visible to every element that depends on it, and all of it to the caller when run ends, with OK, with an error or by an exception. On the parallel path of the dynamic engine (no dependencies) all of it is visible to the caller when run returns. What the caller did before run is visible to every element. The engines do not race on the status they share between threads.',
'all graphs, all choices of elements run by the caller, all results and exceptions of elements, all schedules of the caller and the workers; repeated runs on the parallel path',
'A missing happens-before edge shows only on weakly ordered hardware or under a compiler that uses it, and a data race may show as anything.',
[E+'_GEngine/GStaticEngine/GStaticEngine.cpp: run', E+'_GEngine/GDynamicEngine/GDynamicEngine.cpp: parallelRunAll, parallelRunOne', TP+'UThreadPool.inl: commit, executeWithTid', TP+'Queue/UAtomicQueue.h: push, tryPop', 'src/CBasic/CStatus.h: operator+='])

prop('C126','The lock-free ring and the spin lock are correct with the memory orders of the code',
'With one producer and one consumer the lock-free ring is a bounded FIFO and its slots are never raced on although its indices are only released and acquired, so that each side may see old values of the other; tryPop answers false, and push goes on waiting, only because of values or room the caller has not been told of. The spin lock, with the orders it names, lets one thread in at a time, and plain data accessed only inside is never raced on.',
'every capacity, every interleaving, every value that a load may return, every synchronisation of the threads by other means; any number of threads and objects for the lock',
'Old values and missing visibility show only on weakly ordered hardware.',
[TP+'Queue/ULockFreeRingBufferQueue.h', TP+'Lock/USpinLock.h'])

prop('C127','What tasks did is visible when the pool is destroyed, and its threads are stopped without data races',
'What a thread did before it handed a task to the pool happens before the task; all that a pool thread did happens before the return of its join; a pool thread that did anything before destroy returned does nothing afterwards, and all that it did happens before that return. The flag that tells a pool thread to stop is never raced on.',
'every number of primary and secondary threads, of tasks, of user threads that commit, create, release and monitor; every interleaving',
'A data race or a missing happens-before edge shows, if at all, only on some machines and compilers.',
[TP+'Thread/UThreadBase.h: reset, loopProcess', TP+'Thread/UThreadPrimary.h: fatWait', TP+'Thread/UThreadSecondary.h: freeze', TP+'UThreadPool.cpp: init, destroy, createSecondaryThread, releaseSecondaryThread, monitor'])

prop('C128','Threads that run at the same time may create, remove, send to and receive from topics',
'Elements and other threads which run at the same time may call createTopic, removeTopic, sendTopicValue and recvTopicValue freely. Every execution is equivalent to the same calls made one after the other: each takes effect once, between its start and its return, with the answer that a bounded queue gives after the earlier calls; messages are neither lost, duplicated nor reordered; a call waits only for a message or for room; no call is undefined.',
'all numbers of threads and topics, all sequences of calls by each of them, all interleavings of the accesses to the map of topics and of the uses of a message, all timeouts',
'A send that overlaps with a createTopic which rehashes the map, or a receive that waits while its topic is removed, needs a schedule a test cannot force.',
['src/GraphCtrl/GraphMessage/GMessageManager.h: createTopic, removeTopic, recvTopicValue, sendTopicValue', 'src/GraphCtrl/GraphMessage/GMessage.h: send, recv', 'src/UtilsCtrl/ThreadPool/Queue/UAtomicRingBufferQueue.h: push, waitPopWithTimeout'])

prop('C129','Threads that run at the same time may bind, publish and subscribe',
'Elements and other threads which run at the same time may call bindTopic, pubTopicValue and subTopicValue freely. A publication reaches every connection that was bound before it once, and no other topic; all connections of a topic see overlapping publications in the same order; a receive hands out the oldest unread value of its connection, and values are neither lost (when publications wait for room), duplicated nor reordered; a call waits only for a value or for room; no call is undefined.',
'all numbers of threads, topics and connections, all sequences of calls by each of them, all interleavings of the lookups, of the pushes of each publication and of the binds, all strategies, sizes and timeouts',
'A bind in the middle of a publication loop, or two publications which overtake each other between two connections, needs a schedule a test cannot force.',
['src/GraphCtrl/GraphMessage/GMessageManager.h: bindTopic, pubTopicValue, subTopicValue', 'src/GraphCtrl/GraphMessage/GMessage.h: send, recv', 'src/UtilsCtrl/ThreadPool/Queue/UAtomicRingBufferQueue.h: push, waitPopWithTimeout'])

prop('C130','What is sent is seen by the receiver, and belongs to it',
'In the sense of the C++ memory model, for topics and for publish/subscribe connections: whatever a thread did before it sent or published a value happens before whatever the thread which receives it does afterwards; the buffers of messages are accessed without data races; and a received value may be read and written by its receiver without a data race.',
'all numbers of threads, channels and values, all sequences of sends, publications, receives and uses, all strategies, sizes, sleeps and timeouts, all interleavings',
'Visibility between threads depends on the hardware and on the schedule; a test on one machine shows neither missing synchronisation nor races that did not happen.',
['src/UtilsCtrl/ThreadPool/Queue/UAtomicRingBufferQueue.h: push, waitPopWithTimeout', 'src/GraphCtrl/GraphMessage/GMessage.h: send, recv', 'src/GraphCtrl/GraphMessage/GMessageManager.h: sendTopicValue, recvTopicValue, pubTopicValue, subTopicValue'])

prop('C131','A pool that watches itself is as safe as one that does not',
'A thread pool whose monitor is enabled can be set up, taken down, set up again and deleted like any other: no such call ends the program, the monitor never touches a primary thread that was deleted, deletion returns, and what the monitor and the calls share is accessed without data races.',
'all numbers of primary threads, all spans of the monitor, all sequences of setConfig (of whether the pool is watched), init, destroy and deletion by one thread, all interleavings with the monitor and all answers of the primary threads to the question whether they are running',
'The monitor sleeps for seconds between its looks, so the few instructions in which a destroy hurts it are hardly ever hit in a test, and whether a race on a flag shows depends on compiler and hardware.',
['src/UtilsCtrl/ThreadPool/UThreadPool.cpp: ~UThreadPool, setConfig, init, destroy, monitor', 'src/UtilsCtrl/ThreadPool/UThreadPool.h: monitor_thread_, is_init_, config_'])

prop('C132','A timer may be started and stopped by several threads',
'Threads may call start and stop of one timer in any order and at the same time: no such call is undefined, at most one timer thread works at any time, when stop has returned the task is not being executed any more, and every call returns if the task does.',
'all numbers of threads, all sequences and interleavings of their calls of start and stop with each other and with the timer threads, all moments at which these wake up',
'The calls interfere only if one falls between two statements of the other, which a test cannot arrange.',
['src/UtilsCtrl/Timer/UTimer.h: start, stop'])

prop('C133','Random data have the requested shape and range, and sessions their form',
'A random vector has the requested size and a random matrix the requested rows and columns, whatever the container held before; all values are in the requested range, and the matrix read row by row is the vector of as many values; with a fixed seed other than 0 every call gives the same values, and a longer vector begins with the shorter one; a session consists of the requested number of groups of exactly six digits, each followed by a dash, and then the key.',
'all engines and distributions that keep to their range, all seeds, sizes, ranges and keys, all former contents of the container',
'Tests see a few draws of one engine; the claims are about all draws, all shapes and all seeds.',
['src/UtilsCtrl/Random/URandom.h: generate, generateSession', 'src/UtilsCtrl/Random/URandomDefine.h: CGRAPH_REAL_RANDOM'])

for p in P: print(json.dumps(p))
