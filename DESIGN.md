# Formal model of QCoro in Rocq (Coq 8.16.1)

## Approach

The code is read as text and transcribed, function by function, into executable Gallina. Each definition cites the
file and lines of /repo it models, each simplification is stated there. Undefined behaviour is a distinct, enumerated
outcome of the model, never "stuck by accident". Programs that use the API (coroutine bodies, event handlers,
consumers, QML code) are arbitrary: coinductive programs or arbitrary sequences of actions. So are the environment's
moves (event loop, signals, timers, other threads, destruction). A theorem quantifies over all of them.

If the faithful model violates a documented or expected property, the theorem is named `..._refuted` and proves the
violation (a concrete run, or, where possible, "in every history such that ..."); `..._partial` marks the strongest true
statement proved about a property that does not hold or is not proved in full. The exact statements of what *does* hold next to a violated
property are properties of their own (C97 and later).

Every file `Props*.v` has one block per property: comment with the English claim, theorem, `Print Assumptions`, and an `Example`
whose reachable state meets the hypotheses of the theorem. Specification vocabulary (`*Spec.v`) is separate from the model
and speaks about traces (observable events), not about the model's internal state, as far as possible.

## Models

| model | code | properties |
|---|---|---|
| `TaskModel.v`: small-step machine; coroutine heap (promise, refcount, awaiters, result), task objects, C++ stack, nested event loops, trace | qcorotask.h, qcorolazytask.h, impl/task*.h, impl/lazytask.h, impl/waitfor.h, impl/connect.h, core/impl/isqprivatesignal.h apart | C01-C22, C97-C99, C116 |
| `GenModel.v`: promise, iterator, ownership, moves, bodies that use other generators | qcorogenerator.h | C23-C28, C100 |
| `AGenModel.v`: promise, symmetric transfer, begin/++/iterators, swap, ownership, QCORO_FOREACH | qcoroasyncgenerator.h | C27, C29-C32, C61, C62, C101, C102 |
| `QtModel.v` (one object, one awaiting coroutine, connections, queued events, timers, helper objects), `QtWrap.v` | core/qcorosignal.h:39-244, 352-375 (QCoroSignal, qCoro()) | C33-C35, C63, C103 |
| `QtObj.v`, `QtIO.v` over it | core/qcoroiodevice*.{h,cpp}, the ReadySignalHelpers of sockets and replies, network/qcoro{abstractsocket,localsocket,networkreply}.cpp | C45-C48, C64, C65, C68, C109, C117-C120 |
| `QtNet.v` over it | sockets, replies, TCP and WebSocket servers, processes, threads (waits), timers (waits), QWebSocket open/ping | C43, C49-C55, C58, C66, C67, C69-C72, C122 |
| `ListenModel.v` | core/qcorosignal.h:245-331, 377-400 (QCoroSignalQueue, qCoroSignalListener) | C36-C39, C73-C76, C114 |
| `WsModel.v` over it | websockets/qcorowebsocket.cpp:88-139, 188-210 | C58, C77, C78, C121 |
| `AwaitModel.v`: any number of coroutines awaiting one object, destroyed at any time; nested emissions | QCoroSignal, awaiters of replies, timers, devices | C123-C125 |
| `RaceModel.v`: co_await of a Task whose coroutine ends on another thread; the atomic reference count | TaskAwaiterBase, TaskFinalSuspend, TaskPromiseBase, `~TaskBase` | C126-C128 |
| `WaitRaceModel.v`: waitFor() of a Task whose coroutine ends on another thread | waitFor, runCoroutine, WaitContext | C130-C132 |
| `ReadersModel.v`: any number of coroutines that read one QIODevice | QCoroIODevice::readAll, read, readLine, waitForReadyRead, ReadOperation, WaitSignalHelper | C133-C136 |
| `WritersModel.v`: any number of coroutines that write to one QIODevice | QCoroIODevice::write, waitForBytesWritten, WaitSignalHelper | C137-C139 |
| `AcceptorsModel.v`: any number of coroutines accept connections from one QTcpServer | QCoroTcpServer::waitForNewConnection, QCoroSignal | C144-C147 |
| C148-C151 | steps are split into steps of one event; an invariant of these gives each listener's first signal, who has a listener (in order), and whether one has been destroyed |
| `WsAcceptorsModel.v`: any number of coroutines accept connections from one QWebSocketServer | QCoroWebSocketServer::nextPendingConnection, its signal listener, QCoroSignal | C148-C151 |
| `LazyRaceModel.v`: LazyTask whose coroutine ends on another thread | LazyTask::operator co_await, TaskAwaiterBase, TaskFinalSuspend, reference count | C143 |
| C144-C147 | invariant: connections that came = gone ++ pending; each coroutine's state says whether it is suspended and woken, and since when; C146: from every state in which two wait |
| `ThreadWaitModel.v`: waitForStarted/waitForFinished, in steps between which the QThread starts and finishes | QCoroThread::waitForStarted, waitForFinished | C140-C142 |
| `ShapeModel.v` | result shape of signals; core/impl/isqprivatesignal.h | C40, C41, C79 |
| `SleepModel.v` | sleepFor, sleepUntil | C44, C80, C81, C104 |
| `ThreadModel.v`: several threads, free interleaving | core/qcorothread.cpp (moveToThread) | C55, C56, C82, C83, C112, C113 |
| `FutureModel.v`: several threads, any number of awaiters | core/qcorofuture.h | C42, C84-C87, C105 |
| `DBusModel.v`: several threads, any number of awaiters | dbus/qcorodbuspendingcall.cpp, qcorodbuspendingreply.h | C57, C88-C91, C106 |
| `QmlModel.v` | qml/qcoroqmltask.{h,cpp} | C59, C92-C94, C107 |
| `ImageModel.v` | quick/qcoroimageprovider.cpp | C60, C95, C96, C108 |
| `CoopSpec.v`: ordinary calls and cooperative threads, compared with `TaskModel.v` | the same code as `TaskModel.v` | C115 |
| `TestModel.v`: arbitrary test bodies over QTest | test/qcorotest.h (without QCORO_TRY_*) | C110, C111 |

## Plan per property

| ids | proof |
|---|---|
| C01-C06 | global invariant of the task machine (refcount = live references; awaiter lists = suspended frames; stack discipline: `TaskInv`, `TaskSafe`), trace invariants (`TaskTrace`), witness run for C06 |
| C07-C12 | automaton per coroutine over the trace (`TaskView`, `TaskLegal`), lifted to all reachable states |
| C13-C15 | `_refuted` runs; what holds instead: C97-C99 |
| C16-C19 | every coroutine's part of the trace is a run of its body (`TaskWalk`); then()/connect() are bodies; inversion of their walks |
| C20-C22 | invariant on waitFor contexts and nested loops (`TaskCtx`, `TaskLoop`); `_refuted` for C22 |
| C23-C28 | invariant on frames, generator objects and iterators (`GenInv`); walks of bodies (`GenLoop`); calls as big steps (`GenCall`) |
| C29-C32, C61, C62 | the same for the async machine (`AGenInv`, `AGenWait`, `AGenWalk`, `AGenLoop`), for all schedules of completions |
| C33-C35, C63 | invariant of the one-object machine (`QtInv`), behaviour of one await over all histories (`QtAwait`, `QtReach`) |
| C43, C45-C55, C58, C64-C72 | each wrapper function is a program; two statements each: `call_spec` (the answer is what the specification allows for the trace, nothing undefined) and `call_ends` (it ends, given what the object does), composed from those of the awaits (`QtCall`, `QtEnds`) |
| C36-C39, C73-C76 | queue invariant (emitted = yielded ++ queued ++ posted) over all histories (`ListenFacts`); violations: for every history of a shape, or a run |
| C58, C77, C78 | product invariant of watcher generator and listener (`WsFacts`) |
| C40, C41, C79 | list and string induction |
| C44, C80, C81, C104 | arithmetic over Z, invariant on the trace |
| C42, C55-C57, C82-C91 | invariants over all interleavings; liveness as "from every reachable state a finite sequence of actions of the event loop leads to ..." or "no action is left" |
| C59, C60, C92-C96 | invariants over all histories of requests, copies, callbacks |
| C116 | contexts are alive iff called and not returned (`QuitFacts`); shape of the call stack after a wake-up |
| C117 | the proof rules of C45-C48 with exact postconditions; after the destruction the trace has no emission (`QtLife.destroyed_silent`), hence no reason to resume |
| C118, C119 | the device's own history (`QtSpec.plays`: states and the signals that belong to them) through all waits of the loop; sums over it. C119 by a run with bytes of an earlier write |
| C120 | a wait is over or the posted events end it (`QtWaitOr.helper_or`); induction on the length of the history over the loop of write() |
| C121 | the state after the swallowed report is kept until the next delivery or timeout (`PropsWs2.swallowed_meanwhile`) |
| C122 | a connection without context object is kept by every step until the object is destroyed (`QtLeak.stale_exec`) |
| C123-C125 | one invariant on connections, posted events, single shots and emissions in progress (`AwaitFacts.inv`): the emissions since the await are those queued, those still to be called and, without a connection, those missed; stale connections and shots are kept by every step |
| C126-C128 | one invariant on the vector, the coroutines in it and the reference count; a coroutine is in the (copied) vector iff it suspended before final_suspend() was over |
| C129 | invariant of the wait: clients that came = connections taken at the emissions so far, then the pending ones; the listener keeps the first |
| C130-C132 | one invariant on both threads' positions, flags and trace; termination as an inductive predicate over all continuations |
| C133-C136 | came = gone ++ buffer, and per coroutine: suspended iff the trace ends in an open call, posted iff a signal was emitted since |
| C137-C139 | per call: confirmed ≤ reported since, and accepted ≤ confirmed + buffer while reports are timely |
| C140-C142 | shape of the trace since the call, per position of the coroutine; every answer and return justified by the trace before it |
| C143 | the state is determined by how far the protocol is (10 stages); its events form one list |
| C97-C102 | iff-characterisations of definedness from the machine invariants |
| C103-C109, C112-C114 | exact statements, from the invariants above |
| C115 | forward simulation between the threads and the task machine, both deterministic between events; trace equivalence (`CoopFacts`) |
| C110, C111 | coinductive class of bodies that use the macros; invariant: nothing has stopped the function, or it is about to return |

Not expressible in these models: compile-time behaviour (concepts and SFINAE: qcoro/concepts_p.h, overload selection, macro syntax),
memory ordering of real threads, accuracy of the wall clock.

## Trusted base

* The kernel of Coq 8.16.1. `Print Assumptions` stands under each property theorem and prints "Closed under the
  global context" for each of them: no axioms, neither own nor of the standard library. Libraries: the standard library and std++. Loading
  std++ loads ssreflect, whose `Coq.ssr.ssrunder.Under_rel` module type declares seven parameters (`Under_rel`, `Under_rel_from_rel`, ...); they
  exist in the environment, and no theorem depends on them.
* The faithfulness of the transcription, as cited in the comments; and the lowering of coroutines by the compiler: what runs around
  await_ready/await_suspend/await_resume/initial_suspend/final_suspend, symmetric transfer, order of destruction of a frame, exceptions through
  unhandled_exception(). The compiler's spelling of function names (`__PRETTY_FUNCTION__`, C41).
* Qt, as stated in the header of each model:
  * queued calls are posted at emission, delivered in order by the event loop of the receiver's thread, also if the connection was cut
    meanwhile, and dropped with the receiver; connections vanish with sender and context object; direct connections call at once;
  * single-shot timers fire once, when the interval is over and the loop runs (tolerance of CoarseTimer ignored); QTimer::start() takes an int;
  * QFuture, QFutureWatcher, QDBusPendingCall(Watcher), QThread (isRunning(), isFinished(), pending events), QSharedDataPointer,
    QQmlEngine and QQuickPixmapReader as described in FutureModel.v, DBusModel.v, ThreadModel.v, QmlModel.v, ImageModel.v.
* One thread, except in the Thread, Future, DBus, Race, WaitRace, ThreadWait and LazyRace models. In `RaceModel.v`, `LazyRaceModel.v` and `WaitRaceModel.v` steps are sequentially consistent and the unsynchronised `done()` and `coroutineFinished` are not counted as data races.

## Not modelled

* qcoro/impl/coroutine.h (shims for std::coroutine), concepts_p.h, waitoperationbase_p.h (unused), macros_p.h, the macros QCORO_TRY_* (they use an undefined macro and do not compile), CMake.
* Allocation failure; by-value parameters of generator coroutines (those of task coroutines are modelled); move-only and reference details of
  value types beyond "moved-from value" (`mv`); the AsyncGenerator&& specialisation.
* In the Qt wrapper models Task is transparent: awaiting a member coroutine runs its body (justified by C05, C07, C08).
* Negative sizes given to read functions; nested event loops inside the consumer of a listener; futures with several results; the contents of QML values.
* Deleting an object of another thread (QCoro::moveToThread's ContextHelper) is atomic.

## Testing the theorems

`seeded/LOG.jsonl` lists edits of the model that imitate realistic bugs, which theorems fail then, and which were tightened because an
edit survived.
