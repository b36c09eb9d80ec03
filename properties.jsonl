{"id": "C01", "title": "Coroutine frames are never used after destruction", "statement": "Whatever coroutines a program creates, awaits, moves, drops or blocks on, the library never touches a destroyed coroutine, destroys one twice, resumes one that is running or finished, destroys one that has not finished, or reads a result that does not exist yet. (Excluded: touching a Task object the user already destroyed, and the LazyTask/quit misuses listed as separate properties.)", "quantifier": "all coroutine bodies, all call/await graphs, all move/drop patterns, all event schedules, all nested waitFor() loops", "why_tests_cant": "Each test runs a handful of fixed programs and interleavings; the claim ranges over every set of coroutine bodies and every order in which the event loop delivers completions.", "anchors": ["qcoro/impl/taskpromisebase.h:TaskPromiseBase::derefCoroutine", "qcoro/impl/taskfinalsuspend.h:TaskFinalSuspend::await_suspend", "qcoro/impl/taskbase.h:TaskBase", "qcoro/impl/taskawaiterbase.h:TaskAwaiterBase"]}
{"id": "C02", "title": "Lifetime of a coroutine", "statement": "A coroutine's frame exists exactly from the call until both its body has finished (and its awaiters were resumed) and no Task object refers to it any more; it is destroyed exactly once. In particular destroying the Task of a running coroutine neither cancels it nor frees it, and nothing leaks once the body has finished and the last Task is gone.", "quantifier": "all programs and schedules, all reachable states", "why_tests_cant": "Each test runs a handful of fixed programs and interleavings; the claim ranges over every set of coroutine bodies and every order in which the event loop delivers completions.", "anchors": ["qcoro/impl/taskpromisebase.h:TaskPromiseBase", "qcoro/impl/taskbase.h:~TaskBase", "qcoro/impl/taskfinalsuspend.h:await_suspend"]}
{"id": "C03", "title": "No lost wake-up", "statement": "Whenever control is back in the outermost event loop, no coroutine is still suspended on a Task whose coroutine has finished.", "quantifier": "all programs, all schedules, all reachable idle states", "why_tests_cant": "Each test runs a handful of fixed programs and interleavings; the claim ranges over every set of coroutine bodies and every order in which the event loop delivers completions.", "anchors": ["qcoro/impl/taskfinalsuspend.h:await_suspend", "qcoro/impl/taskawaiterbase.h:await_suspend"]}
{"id": "C04", "title": "Every awaiter is resumed exactly once, in registration order, after the task finished", "statement": "The coroutines suspended on a task are resumed in the order in which they started awaiting it, each exactly once per co_await, and never before the awaited coroutine finished.", "quantifier": "all numbers of awaiters, all programs, all schedules", "why_tests_cant": "Each test runs a handful of fixed programs and interleavings; the claim ranges over every set of coroutine bodies and every order in which the event loop delivers completions.", "anchors": ["qcoro/impl/taskfinalsuspend.h:await_suspend", "qcoro/impl/taskpromisebase.h:addAwaitingCoroutine"]}
{"id": "C05", "title": "The first consumer gets exactly the co_returned value; exceptions reach every consumer", "statement": "The first co_await of a task that completes yields exactly the value its coroutine co_returned; if the coroutine ended with an exception, every co_await of it rethrows that exception.", "quantifier": "all values, exceptions, programs and schedules", "why_tests_cant": "Each test runs a handful of fixed programs and interleavings; the claim ranges over every set of coroutine bodies and every order in which the event loop delivers completions.", "anchors": ["qcoro/impl/taskpromise.h:result", "qcoro/impl/taskbase.h:await_resume"]}
{"id": "C06", "title": "Every consumer of one task gets the same value (violated)", "statement": "If several coroutines co_await the same task (or one does so repeatedly), each receives the co_returned value.", "quantifier": "all numbers of consumers, all value types", "why_tests_cant": "Tests use int, for which moved-from equals the original.", "anchors": ["qcoro/impl/taskbase.h:await_resume (std::move of promise().result())"]}
{"id": "C07", "title": "Task coroutines start eagerly", "statement": "Calling a Task coroutine runs its body immediately in the caller's stack: nothing else executes between the call and the first suspension or completion of the callee, and only then does the caller continue.", "quantifier": "all callers, bodies and nesting depths", "why_tests_cant": "Each test runs a handful of fixed programs and interleavings; the claim ranges over every set of coroutine bodies and every order in which the event loop delivers completions.", "anchors": ["qcoro/impl/taskpromisebase.h:initial_suspend"]}
{"id": "C08", "title": "Awaiting a finished task never suspends", "statement": "co_await on a task whose coroutine has finished continues the awaiting coroutine at once, without suspension and without returning to the event loop.", "quantifier": "all programs, states and schedules", "why_tests_cant": "Each test runs a handful of fixed programs and interleavings; the claim ranges over every set of coroutine bodies and every order in which the event loop delivers completions.", "anchors": ["qcoro/impl/taskawaiterbase.h:await_ready"]}
{"id": "C09", "title": "Awaiting an empty Task warns and hangs", "statement": "co_await on a default-constructed or moved-from Task emits one warning and suspends the awaiting coroutine for good: no later event resumes it.", "quantifier": "all programs and all future schedules", "why_tests_cant": "'Forever' cannot be tested.", "anchors": ["qcoro/impl/taskawaiterbase.h:await_suspend"]}
{"id": "C10", "title": "Moving a Task transfers ownership exactly", "statement": "Move construction/assignment makes the target refer to the source's coroutine and empties the source; the number of owners of every coroutine is preserved except that assignment releases the target's previous coroutine; self-move-assignment changes nothing.", "quantifier": "all states and all pairs of Task objects", "why_tests_cant": "Each test runs a handful of fixed programs and interleavings; the claim ranges over every set of coroutine bodies and every order in which the event loop delivers completions.", "anchors": ["qcoro/impl/taskbase.h:TaskBase(TaskBase&&)", "qcoro/impl/taskbase.h:operator="]}
{"id": "C11", "title": "isReady() is exact", "statement": "isReady() returns true exactly when the Task is empty or its coroutine has finished, and once true for a given coroutine stays true.", "quantifier": "all states and schedules", "why_tests_cant": "Each test runs a handful of fixed programs and interleavings; the claim ranges over every set of coroutine bodies and every order in which the event loop delivers completions.", "anchors": ["qcoro/impl/taskbase.h:isReady"]}
{"id": "C12", "title": "A LazyTask body runs only when awaited, and starts at most once", "statement": "The body of a LazyTask coroutine does not start until some coroutine co_awaits it; the first co_await starts it immediately; it is started at most once.", "quantifier": "all programs and schedules", "why_tests_cant": "Each test runs a handful of fixed programs and interleavings; the claim ranges over every set of coroutine bodies and every order in which the event loop delivers completions.", "anchors": ["qcoro/impl/lazytask.h:initial_suspend", "qcoro/impl/lazytask.h:await_suspend"]}
{"id": "C13", "title": "Destroying an un-awaited LazyTask frees its frame (violated)", "statement": "When the last LazyTask object of a never-awaited coroutine is destroyed, the coroutine frame is freed.", "quantifier": "all programs", "why_tests_cant": "Leaks are not observed by the unit tests.", "anchors": ["qcoro/impl/taskpromisebase.h:TaskPromiseBase()", "qcoro/impl/lazytask.h:~LazyTask"]}
{"id": "C14", "title": "co_await on an empty LazyTask hangs like Task (violated)", "statement": "co_await on a default-constructed or moved-from LazyTask behaves as documented for Task: it warns and suspends forever.", "quantifier": "all programs", "why_tests_cant": "The tests only exercise empty Task, not LazyTask.", "anchors": ["qcoro/impl/lazytask.h:await_suspend"]}
{"id": "C15", "title": "A LazyTask can be awaited by several coroutines (violated)", "statement": "A second co_await of a LazyTask that is started but not finished just waits for it, as for Task.", "quantifier": "all programs and schedules", "why_tests_cant": "Needs a second awaiter while the task is suspended.", "anchors": ["qcoro/impl/lazytask.h:await_suspend"]}
{"id": "C16", "title": "then(): value continuation", "statement": "If the task completes with a value, the continuation passed to then() is invoked exactly once, with that value, after completion, and the Task returned by then() completes with what the continuation returned (or threw); if the continuation returns a task, with that task's outcome. If the task is already finished the continuation runs before then() returns.", "quantifier": "all tasks, continuations and schedules", "why_tests_cant": "Each test runs a handful of fixed programs and interleavings; the claim ranges over every set of coroutine bodies and every order in which the event loop delivers completions.", "anchors": ["qcoro/impl/taskbase.h:thenImpl", "qcoro/impl/taskbase.h:thenImplRef", "qcoro/impl/taskbase.h:invokeCb"]}
{"id": "C17", "title": "then(): error continuation", "statement": "If the task ends with a std::exception, the value continuation is not invoked; the error callback is invoked exactly once with it and the resulting task completes with a default value (or with the exception the error callback throws); with no error callback the exception is propagated unchanged. Exceptions not derived from std::exception are always propagated unchanged and call neither callback.", "quantifier": "all tasks, exceptions, callbacks and schedules", "why_tests_cant": "Each test runs a handful of fixed programs and interleavings; the claim ranges over every set of coroutine bodies and every order in which the event loop delivers completions.", "anchors": ["qcoro/impl/taskbase.h:handleException", "qcoro/impl/taskbase.h:thenImpl"]}
{"id": "C18", "title": "then() on a temporary keeps the task alive", "statement": "The task object moved into a continuation by then()&& stays alive until the continuation's own frame is destroyed, and is then released, so the continuation never refers to a dead task.", "quantifier": "all programs and schedules", "why_tests_cant": "Each test runs a handful of fixed programs and interleavings; the claim ranges over every set of coroutine bodies and every order in which the event loop delivers completions.", "anchors": ["qcoro/impl/taskbase.h:thenImpl (by-value task_)"]}
{"id": "C19", "title": "QCoro::connect() calls back iff the context lives", "statement": "QCoro::connect() invokes the callback at most once, exactly when the task completes with a value while the context object is still alive at that moment; never after the context's destruction and never if the task throws.", "quantifier": "all tasks, schedules and destruction times", "why_tests_cant": "Each test runs a handful of fixed programs and interleavings; the claim ranges over every set of coroutine bodies and every order in which the event loop delivers completions.", "anchors": ["qcoro/impl/connect.h:connect"]}
{"id": "C20", "title": "waitFor() returns the task's outcome", "statement": "waitFor() returns only after the awaited task finished and then returns exactly the value (or throws exactly the exception) with which it finished, for every nesting of waitFor() calls, provided nobody quits the nested loop from outside.", "quantifier": "all tasks, schedules and nesting depths", "why_tests_cant": "Each test runs a handful of fixed programs and interleavings; the claim ranges over every set of coroutine bodies and every order in which the event loop delivers completions.", "anchors": ["qcoro/impl/waitfor.h:waitFor", "qcoro/impl/waitfor.h:runCoroutine"]}
{"id": "C21", "title": "waitFor() on a finished task does not spin an event loop", "statement": "waitFor() on a task that completes synchronously never enters the nested event loop, so no foreign event is processed meanwhile.", "quantifier": "all programs and states", "why_tests_cant": "Each test runs a handful of fixed programs and interleavings; the claim ranges over every set of coroutine bodies and every order in which the event loop delivers completions.", "anchors": ["qcoro/impl/waitfor.h:waitFor"]}
{"id": "C22", "title": "waitFor() survives an external quit (violated)", "statement": "If the nested event loop is quit from outside (e.g. QCoreApplication::quit()) waitFor() has defined behaviour.", "quantifier": "all schedules with an external quit", "why_tests_cant": "Requires quitting in the middle of a wait.", "anchors": ["qcoro/impl/waitfor.h:waitFor"]}
{"id": "C23", "title": "Generator yields exactly the co_yielded sequence", "statement": "Iterating a Generator from begin() to end() produces exactly the values co_yielded by the body, in order, none lost, duplicated or reordered, and ends exactly when the body ends.", "quantifier": "all generator bodies, all lengths", "why_tests_cant": "Unbounded sequences.", "anchors": ["qcoro/qcorogenerator.h:GeneratorIterator::operator++", "qcoro/qcorogenerator.h:GeneratorPromise::yield_value"]}
{"id": "C24", "title": "Generator is lazy and runs in lockstep", "statement": "No code of the generator body runs before begin(); afterwards the body advances by exactly one co_yield per ++it.", "quantifier": "all bodies (including infinite ones) and all numbers of increments", "why_tests_cant": "Infinite generators.", "anchors": ["qcoro/qcorogenerator.h"]}
{"id": "C25", "title": "Generator exceptions surface at the right increment", "statement": "If the body throws, begin() or the ++it that ran into it rethrows that exception, all values before it were delivered, and afterwards the iterator equals end().", "quantifier": "all bodies and exception positions", "why_tests_cant": "All positions.", "anchors": ["qcoro/qcorogenerator.h"]}
{"id": "C26", "title": "Generator frames are destroyed exactly once", "statement": "Under any sequence of creation, move construction, iteration and destruction of generators, every generator body's frame is destroyed exactly once, when its owning Generator object is destroyed.", "quantifier": "all operation sequences without move assignment", "why_tests_cant": "All histories.", "anchors": ["qcoro/qcorogenerator.h:~Generator", "qcoro/qcorogenerator.h:Generator(Generator&&)"]}
{"id": "C27", "title": "Generator move assignment releases the previous body (violated)", "statement": "Move-assigning to a Generator (or AsyncGenerator) destroys the coroutine it owned before, and self-move-assignment is harmless.", "quantifier": "all operation sequences", "why_tests_cant": "Leak is invisible to tests.", "anchors": ["qcoro/qcorogenerator.h:operator=", "qcoro/qcoroasyncgenerator.h:operator="]}
{"id": "C28", "title": "begin() on an exhausted or empty Generator is safe (violated)", "statement": "begin() on a moved-from or finished Generator, and ++ through a stale copy of an iterator, are well defined.", "quantifier": "all operation sequences", "why_tests_cant": "Histories not in the tests.", "anchors": ["qcoro/qcorogenerator.h:begin"]}
{"id": "C29", "title": "AsyncGenerator delivers exactly the yielded sequence", "statement": "For every schedule of the producer's internal suspensions and the consumer's own awaits, the consumer sees exactly the values co_yielded, in order, and reaches end() exactly when the body has ended.", "quantifier": "all producer bodies, all schedules", "why_tests_cant": "Each test runs a handful of fixed programs and interleavings; the claim ranges over every set of coroutine bodies and every order in which the event loop delivers completions.", "anchors": ["qcoro/qcoroasyncgenerator.h:AsyncGeneratorPromise", "qcoro/qcoroasyncgenerator.h:IncrementIteratorAwaitable", "qcoro/qcoroasyncgenerator.h:BeginIteratorAwaitable"]}
{"id": "C30", "title": "AsyncGenerator runs in lockstep with its consumer", "statement": "The producer body runs only while the consumer awaits begin() or ++it; it never runs ahead, and the value referenced by *it stays valid until the next ++it.", "quantifier": "all producer and consumer programs, all schedules", "why_tests_cant": "Each test runs a handful of fixed programs and interleavings; the claim ranges over every set of coroutine bodies and every order in which the event loop delivers completions.", "anchors": ["qcoro/qcoroasyncgenerator.h:yield_value"]}
{"id": "C31", "title": "AsyncGenerator exceptions surface at the awaited increment", "statement": "An exception thrown by the producer body is rethrown from the co_await of begin()/++it that was waiting, exactly once, after all earlier values were delivered; the iterator then equals end().", "quantifier": "all bodies and schedules", "why_tests_cant": "Each test runs a handful of fixed programs and interleavings; the claim ranges over every set of coroutine bodies and every order in which the event loop delivers completions.", "anchors": ["qcoro/qcoroasyncgenerator.h:await_resume", "qcoro/qcoroasyncgenerator.h:rethrow_if_unhandled_exception"]}
{"id": "C32", "title": "AsyncGenerator can be destroyed while its producer is suspended (violated)", "statement": "Destroying an AsyncGenerator whose body is suspended in a co_await is safe: the pending completion later has no effect.", "quantifier": "all programs and schedules", "why_tests_cant": "Crash point.", "anchors": ["qcoro/qcoroasyncgenerator.h:~AsyncGenerator"]}
{"id": "C33", "title": "qCoro(obj, signal) resumes exactly once with the first emission", "statement": "A coroutine awaiting a signal is resumed exactly once, asynchronously, with the arguments of the first emission after the co_await; later emissions have no effect on it.", "quantifier": "all emission histories and schedules", "why_tests_cant": "Each test runs a handful of fixed programs and interleavings; the claim ranges over every set of coroutine bodies and every order in which the event loop delivers completions.", "anchors": ["qcoro/core/qcorosignal.h:QCoroSignal"]}
{"id": "C34", "title": "qCoro(obj, signal, timeout): signal or timeout, never both", "statement": "With a timeout, the awaiting coroutine is resumed exactly once: with the first emission's arguments if its delivery precedes the expiry, else with an empty result; the other source is disarmed.", "quantifier": "all interleavings of emission, delivery and timer expiry", "why_tests_cant": "Race between queued delivery and timer.", "anchors": ["qcoro/core/qcorosignal.h:handleTimeout", "qcoro/core/qcorosignal.h:setupConnection"]}
{"id": "C35", "title": "Awaiting a signal with timeout always ends (violated)", "statement": "With a timeout the co_await completes no later than the timeout, even if the object is destroyed meanwhile.", "quantifier": "all schedules", "why_tests_cant": "Destruction between await and expiry.", "anchors": ["qcoro/core/qcorosignal.h:handleTimeout (connect with context mObj)"]}
{"id": "C36", "title": "Signal listener loses, duplicates and reorders nothing", "statement": "qCoroSignalListener() delivers every emission delivered since its creation exactly once, in emission order, to a consumer that only awaits the listener.", "quantifier": "all emission histories and consumer paces (consumer suspended only on the listener)", "why_tests_cant": "Each test runs a handful of fixed programs and interleavings; the claim ranges over every set of coroutine bodies and every order in which the event loop delivers completions.", "anchors": ["qcoro/core/qcorosignal.h:QCoroSignalQueue", "qcoro/core/qcorosignal.h:qCoroSignalListener"]}
{"id": "C37", "title": "Emissions while the consumer is suspended elsewhere are enqueued (violated)", "statement": "An emission that occurs while the listener's consumer is suspended in an unrelated co_await is just enqueued and returned synchronously by the next co_await ++it.", "quantifier": "all schedules", "why_tests_cant": "Needs emission during a foreign suspension.", "anchors": ["qcoro/core/qcorosignal.h:QCoroSignalQueue slot lambda", "qcoro/core/qcorosignal.h:mAwaitingCoroutine", "docs/reference/core/signals.md"]}
{"id": "C38", "title": "Signal listener with timeout ends exactly on a quiet period", "statement": "With a timeout, the listener ends exactly when no emission was delivered for the timeout while the consumer was waiting on it; everything delivered before was yielded.", "quantifier": "all emission/timeout histories", "why_tests_cant": "Each test runs a handful of fixed programs and interleavings; the claim ranges over every set of coroutine bodies and every order in which the event loop delivers completions.", "anchors": ["qcoro/core/qcorosignal.h:QCoroSignalQueue::handleTimeout"]}
{"id": "C39", "title": "Listener timeout handling is idempotent (violated)", "statement": "After several waits, one timeout resumes the listener once.", "quantifier": "all histories with two or more waits", "why_tests_cant": "Duplicate connections accumulate silently.", "anchors": ["qcoro/core/qcorosignal.h:QCoroSignalQueue::handleTimeout"]}
{"id": "C40", "title": "Signal result shape", "statement": "The result of awaiting a signal consists of exactly the non-private arguments in order: nothing for zero, the bare value for one, a tuple for more; a trailing QPrivateSignal never shows up.", "quantifier": "all argument lists", "why_tests_cant": "All arities and positions.", "anchors": ["qcoro/core/qcorosignal.h:storeResult", "qcoro/core/qcorosignal.h:filtered_tuple"]}
{"id": "C41", "title": "QPrivateSignal detection by type name", "statement": "A type is treated as private signal exactly when its spelled name ends in QPrivateSignal immediately before the closing bracket of the function signature string.", "quantifier": "all type-name strings", "why_tests_cant": "All strings.", "anchors": ["qcoro/core/impl/isqprivatesignal.h"]}
{"id": "C42", "title": "co_await QFuture", "statement": "co_await on a QFuture resumes exactly once when the future finishes and yields its result; a future already finished does not suspend.", "quantifier": "all future histories", "why_tests_cant": "Each test runs a handful of fixed programs and interleavings; the claim ranges over every set of coroutine bodies and every order in which the event loop delivers completions.", "anchors": ["qcoro/core/qcorofuture.h"]}
{"id": "C43", "title": "co_await QTimer / waitForTimeout", "statement": "co_await on an active timer resumes at its next timeout exactly once; on an inactive (or null) timer it does not suspend.", "quantifier": "all timer histories", "why_tests_cant": "Each test runs a handful of fixed programs and interleavings; the claim ranges over every set of coroutine bodies and every order in which the event loop delivers completions.", "anchors": ["qcoro/core/qcorotimer.h", "qcoro/core/qcorotimer.cpp"]}
{"id": "C44", "title": "sleepFor never wakes early (violated below 1 ms granularity); sleepUntil sleeps until the given time", "statement": "sleepFor(d) suspends for at least d, and sleepUntil(t) for a steady_clock time until t; both resume as soon as the event loop runs after that.", "quantifier": "all durations, clocks and time points", "why_tests_cant": "All durations.", "anchors": ["qcoro/core/qcorotimer.h:sleepFor", "qcoro/core/qcorotimer.h:sleepUntil"]}
{"id": "C45", "title": "QIODevice reads are consistent", "statement": "readAll()/read(n)/readLine() complete with the device's data once some is available, or empty on timeout/unreadable device; the bytes returned over successive reads are exactly a prefix of the bytes that arrived, in order.", "quantifier": "all arrival histories and read sizes", "why_tests_cant": "Each test runs a handful of fixed programs and interleavings; the claim ranges over every set of coroutine bodies and every order in which the event loop delivers completions.", "anchors": ["qcoro/core/qcoroiodevice.cpp:readAll", "qcoro/core/qcoroiodevice.cpp:read", "qcoro/core/qcoroiodevice.cpp:readLine"]}
{"id": "C46", "title": "waitForReadyRead() tells the truth (violated)", "statement": "waitForReadyRead() resolves to true only if new data is available for reading.", "quantifier": "all device histories", "why_tests_cant": "Close/disconnect during the wait.", "anchors": ["qcoro/core/qcoroiodevice.cpp:waitForReadyRead", "qcoro/core/qcoroiodevice_p.cpp", "qcoro/network/qcoroabstractsocket.cpp:waitForReadyReadImpl"]}
{"id": "C47", "title": "write() returns the number of bytes confirmed", "statement": "If QCoroIODevice::write() completes, it returns min-bounded sums of bytesWritten notifications: never more notifications counted than delivered, equal to or above the number of accepted bytes when all were confirmed, and it stops early only if the device was closed or is not writable.", "quantifier": "all sequences of bytesWritten notifications", "why_tests_cant": "Each test runs a handful of fixed programs and interleavings; the claim ranges over every set of coroutine bodies and every order in which the event loop delivers completions.", "anchors": ["qcoro/core/qcoroiodevice.cpp:write"]}
{"id": "C48", "title": "write() always terminates (violated)", "statement": "QCoroIODevice::write() completes after finitely many steps whenever the device has nothing left to write.", "quantifier": "all devices", "why_tests_cant": "Non-termination.", "anchors": ["qcoro/core/qcoroiodevice.cpp:write", "qcoro/core/qcoroiodevice.cpp:waitForBytesWritten"]}
{"id": "C49", "title": "QAbstractSocket waiters decide by state and signals", "statement": "waitForConnected/waitForDisconnected resolve immediately according to the socket state and otherwise to whether the signal arrived before the timeout.", "quantifier": "all socket histories", "why_tests_cant": "Each test runs a handful of fixed programs and interleavings; the claim ranges over every set of coroutine bodies and every order in which the event loop delivers completions.", "anchors": ["qcoro/network/qcoroabstractsocket.cpp"]}
{"id": "C50", "title": "A failing connection attempt ends waitForConnected() (violated)", "statement": "waitForConnected() on a socket whose connection attempt fails resolves to false.", "quantifier": "all socket histories", "why_tests_cant": "Hang.", "anchors": ["qcoro/network/qcoroabstractsocket.cpp:waitForConnected", "docs/reference/network/qabstractsocket.md"]}
{"id": "C51", "title": "QLocalSocket waiters", "statement": "waitForConnected() on QLocalSocket resolves to true iff connected before the timeout and before the socket got unconnected, in every state history; a socket that gets unconnected while the coroutine waits ends the wait with false.", "quantifier": "all socket histories", "why_tests_cant": "Each test runs a handful of fixed programs and interleavings; the claim ranges over every set of coroutine bodies and every order in which the event loop delivers completions.", "anchors": ["qcoro/network/qcorolocalsocket.cpp"]}
{"id": "C52", "title": "co_await QNetworkReply", "statement": "co_await reply resumes exactly once after finished and yields the reply; already finished replies do not suspend.", "quantifier": "all reply histories", "why_tests_cant": "Each test runs a handful of fixed programs and interleavings; the claim ranges over every set of coroutine bodies and every order in which the event loop delivers completions.", "anchors": ["qcoro/network/qcoronetworkreply.cpp"]}
{"id": "C53", "title": "QTcpServer::waitForNewConnection", "statement": "Resolves at once to null if the server is not listening, at once to the oldest pending connection if there is one, to null when the timeout is over, and else, resumed by newConnection, to the oldest connection pending then (null if there is none any more); repeated calls hand out every connection exactly once in order of arrival.", "quantifier": "all server histories", "why_tests_cant": "Each test runs a handful of fixed programs and interleavings; the claim ranges over every set of coroutine bodies and every order in which the event loop delivers completions.", "anchors": ["qcoro/network/qcorotcpserver.cpp", "qcoro/waitoperationbase_p.h"]}
{"id": "C54", "title": "QProcess waiters", "statement": "waitForStarted/waitForFinished/start resolve by the process state and signals exactly like documented.", "quantifier": "all process histories", "why_tests_cant": "Each test runs a handful of fixed programs and interleavings; the claim ranges over every set of coroutine bodies and every order in which the event loop delivers completions.", "anchors": ["qcoro/core/qcoroprocess.cpp"]}
{"id": "C55", "title": "QThread waiters and moveToThread", "statement": "waitForStarted/waitForFinished resolve by thread state; after co_await moveToThread(t) the coroutine continues on thread t, exactly once.", "quantifier": "all thread histories", "why_tests_cant": "Each test runs a handful of fixed programs and interleavings; the claim ranges over every set of coroutine bodies and every order in which the event loop delivers completions.", "anchors": ["qcoro/core/qcorothread.cpp"]}
{"id": "C56", "title": "moveToThread() always resumes (violated)", "statement": "co_await moveToThread(t) eventually resumes even if t has already finished.", "quantifier": "all thread histories", "why_tests_cant": "Hang.", "anchors": ["qcoro/core/qcorothread.cpp:ThreadContext"]}
{"id": "C57", "title": "co_await QDBusPendingCall/Reply", "statement": "co_await on a QDBusPendingCall or QDBusPendingReply yields its reply, exactly once; it does not suspend if the call has finished; a coroutine that is suspended before the others are notified, or the only one, is resumed once the call has finished.", "quantifier": "all call histories", "why_tests_cant": "Each test runs a handful of fixed programs and interleavings; the claim ranges over every set of coroutine bodies and every order in which the event loop delivers completions.", "anchors": ["qcoro/dbus/qcorodbuspendingcall.cpp", "qcoro/dbus/qcorodbuspendingreply.h"]}
{"id": "C58", "title": "QWebSocket open/ping and message streams", "statement": "open() resolves to true iff connected before error/timeout; ping() yields the round-trip of the first pong; to a user that awaits nothing but the generator, the frame/message generators yield exactly the frames received since begin(), in order, and end exactly at the first change to a state other than connected or when the socket was quiet for the timeout.", "quantifier": "all socket histories", "why_tests_cant": "Each test runs a handful of fixed programs and interleavings; the claim ranges over every set of coroutine bodies and every order in which the event loop delivers completions.", "anchors": ["qcoro/websockets/qcorowebsocket.cpp", "qcoro/websockets/qcorowebsocketserver.cpp"]}
{"id": "C59", "title": "QML task bridge", "statement": "The function passed to QmlTask.then() is called exactly once if the task ends with a result (never if it ends with an exception), with the result if it is the only callback of the task; await() sets the listener's value to the intermediate value first, if there is one, and likewise to the result when the task ends, only while the listener is alive.", "quantifier": "all schedules", "why_tests_cant": "Each test runs a handful of fixed programs and interleavings; the claim ranges over every set of coroutine bodies and every order in which the event loop delivers completions.", "anchors": ["qcoro/qml/qcoroqmltask.cpp"]}
{"id": "C60", "title": "Image provider always finishes the response (violated)", "statement": "QCoro::ImageProvider emits finished for every requested image, also if asyncRequestImage() throws.", "quantifier": "all outcomes", "why_tests_cant": "Exception path untested.", "anchors": ["qcoro/quick/qcoroimageprovider.cpp"]}
{"id": "C61", "title": "AsyncGenerator frames are destroyed exactly once", "statement": "Under any history of creation, moves, swaps, iteration and destruction, the frame of every async generator body is destroyed at most once, only together with the AsyncGenerator object that owns it, and destroying the owner does destroy it and the generators local to the body, wherever the body is suspended.", "quantifier": "all programs and schedules (without move assignment, see C27)", "why_tests_cant": "Each test runs a handful of fixed programs and interleavings; the claim ranges over every set of coroutine bodies and every order in which the event loop delivers completions.", "anchors": ["qcoro/qcoroasyncgenerator.h:~AsyncGenerator", "qcoro/qcoroasyncgenerator.h:AsyncGenerator(AsyncGenerator&&)", "qcoro/qcoroasyncgenerator.h:swap"]}
{"id": "C62", "title": "begin() on a finished AsyncGenerator and ++ on an end iterator are safe (violated)", "statement": "co_await begin() on a finished AsyncGenerator yields end() and co_await ++it on an iterator equal to end() is well defined.", "quantifier": "all programs", "why_tests_cant": "Histories not in the tests.", "anchors": ["qcoro/qcoroasyncgenerator.h:begin", "qcoro/qcoroasyncgenerator.h:IncrementIteratorAwaitable"]}
{"id": "C63", "title": "Awaiting a signal of a null object (violated)", "statement": "co_await qCoro(obj, &Obj::sig) with obj == nullptr completes (or suspends) without undefined behaviour, like the overload with a timeout does.", "quantifier": "all callers", "why_tests_cant": "Null objects are not in the tests.", "anchors": ["qcoro/core/qcorosignal.h:qCoro", "qcoro/core/qcorosignal.h:QCoroSignalBase"]}
{"id": "C64", "title": "readLine() waits for a complete line (violated)", "statement": "qCoro(device).readLine() resolves to a complete line (terminated by a newline) unless the device is closed or the maximum size or timeout is reached.", "quantifier": "all arrival histories", "why_tests_cant": "Fragmentation of the input is up to the peer.", "anchors": ["qcoro/core/qcoroiodevice.cpp:readLine", "docs/reference/core/qiodevice.md"]}
{"id": "C65", "title": "write() does not depend on the wrapper object (violated)", "statement": "auto task = qCoro(device).write(buf); co_await task; is well defined, although the temporary wrapper object is destroyed at the end of the first full expression.", "quantifier": "all histories", "why_tests_cant": "Lifetime of temporaries.", "anchors": ["qcoro/core/qcoroiodevice.cpp:write"]}
{"id": "C66", "title": "QWebSocketServer::nextPendingConnection leaves no connection behind (violated)", "statement": "After qCoro(webSocketServer).nextPendingConnection() has returned, later events of the server do not run code of that call and do not consume pending connections.", "quantifier": "all server histories", "why_tests_cant": "Needs a wait that is ended by a timeout or by closed(), then a new connection.", "anchors": ["qcoro/websockets/qcorowebsocketserver.cpp"]}
{"id": "C67", "title": "QWebSocket::open() resolves when the connection fails at once (violated)", "statement": "co_await qCoro(webSocket).open(url) resolves also if the socket reports the error or the state change during the call of open() itself.", "quantifier": "all socket histories", "why_tests_cant": "Hang.", "anchors": ["qcoro/websockets/qcorowebsocket.cpp:open"]}
{"id": "C68", "title": "Reads survive the destruction of the device (violated)", "statement": "If the device is destroyed while co_await qCoro(device).readAll() is suspended, the operation completes without undefined behaviour.", "quantifier": "all histories", "why_tests_cant": "Destruction during a wait.", "anchors": ["qcoro/core/qcoroiodevice.cpp:readAll", "qcoro/core/qcoroiodevice.cpp:ReadOperation"]}
{"id": "C69", "title": "QProcess::waitForStarted() ends when the process fails to start (violated)", "statement": "co_await qCoro(process).waitForStarted() (or start()) resolves to false when the process turns out not to start (FailedToStart while starting).", "quantifier": "all process histories", "why_tests_cant": "Hang; the tests only start existing programs.", "anchors": ["qcoro/core/qcoroprocess.cpp:waitForStarted"]}
{"id": "C70", "title": "QWebSocketServer::nextPendingConnection", "statement": "Resolves at once to null if the server is not listening, at once to the oldest pending connection if there is one, and otherwise to the connection announced by the first newConnection, to null if the server is closed first or the timeout is over.", "quantifier": "all server histories", "why_tests_cant": "Each test runs a handful of fixed programs and interleavings; the claim ranges over every set of coroutine bodies and every order in which the event loop delivers completions.", "anchors": ["qcoro/websockets/qcorowebsocketserver.cpp:nextPendingConnection"]}
{"id": "C71", "title": "QWebSocketServer::nextPendingConnection loses no connection (violated)", "statement": "Every connection of a QWebSocketServer that is not returned by nextPendingConnection() stays pending.", "quantifier": "all server histories", "why_tests_cant": "Needs two clients between two turns of the event loop.", "anchors": ["qcoro/websockets/qcorowebsocketserver.cpp"]}
{"id": "C72", "title": "QLocalSocket::connectToServer() ends when it fails at once (violated)", "statement": "co_await qCoro(localSocket).connectToServer(name) resolves to false also if QLocalSocket::connectToServer() fails during the call itself (no such server on Unix).", "quantifier": "all socket histories", "why_tests_cant": "Hang.", "anchors": ["qcoro/network/qcorolocalsocket.cpp:connectToServer", "qcoro/network/qcorolocalsocket.cpp:waitForConnected"]}
{"id": "C73", "title": "A signal listener with timeout ends although its object is destroyed (violated)", "statement": "If the object is destroyed while the consumer waits for qCoroSignalListener(obj, signal, timeout), the listener ends at the timeout.", "quantifier": "all schedules", "why_tests_cant": "Destruction between two emissions.", "anchors": ["qcoro/core/qcorosignal.h:handleTimeout (connect with context mObj)"]}
{"id": "C74", "title": "A signal listener yields the emissions made before its object was destroyed (violated)", "statement": "Every emission made before the object was destroyed is yielded by the listener before it ends.", "quantifier": "all schedules", "why_tests_cant": "Needs destruction between emission and queued delivery.", "anchors": ["qcoro/core/qcorosignal.h:QCoroSignalQueue::isValid", "qcoro/core/qcorosignal.h:qCoroSignalListener"]}
{"id": "C75", "title": "A signal listener without timeout never ends (violated)", "statement": "Without a timeout the listener never ends on its own, even if the object is destroyed (as documented).", "quantifier": "all schedules", "why_tests_cant": "Needs destruction of the object between two co_awaits.", "anchors": ["docs/reference/core/signals.md", "qcoro/core/qcorosignal.h:QCoroSignalQueue"]}
{"id": "C76", "title": "Emissions delivered after the end of a signal listener are harmless (violated)", "statement": "An emission that is delivered after the timeout ended the listener has no effect.", "quantifier": "all schedules", "why_tests_cant": "Race between queued delivery and timer.", "anchors": ["qcoro/core/qcorosignal.h:QCoroSignalQueue slot lambda", "qcoro/core/qcorosignal.h:handleTimeout"]}
{"id": "C77", "title": "Frames received while the user is suspended elsewhere are buffered (violated)", "statement": "A frame (or the disconnection) that arrives while the user of a QWebSocket frame generator is suspended in another co_await is buffered and returned by the next co_await ++it (as documented).", "quantifier": "all schedules", "why_tests_cant": "Needs a frame during a foreign suspension.", "anchors": ["qcoro/websockets/qcorowebsocket.cpp:watcherGenerator", "docs/reference/websockets/qwebsocket.md"]}
{"id": "C78", "title": "Frames received since the generator object was created are buffered (violated)", "statement": "A QWebSocket frame generator yields every frame received since the generator object was created (as documented).", "quantifier": "all schedules", "why_tests_cant": "Needs a frame between creation and begin().", "anchors": ["qcoro/websockets/qcorowebsocket.cpp:watcherGenerator", "docs/reference/websockets/qwebsocket.md"]}
{"id": "C79", "title": "Only private signal arguments are dropped (violated)", "statement": "No argument of a signal other than its QPrivateSignal argument is left out of the result of awaiting it.", "quantifier": "all argument types", "why_tests_cant": "Ranges over all type names.", "anchors": ["qcoro/core/impl/isqprivatesignal.h", "qcoro/core/qcorosignal.h:storeResult"]}
{"id": "C80", "title": "sleepUntil() works with every clock (violated)", "statement": "sleepUntil(t) resumes when t's own clock reads t, e.g. with std::chrono::system_clock as in the documentation.", "quantifier": "all clocks and times", "why_tests_cant": "Depends on the offset between the clocks.", "anchors": ["qcoro/core/qcorotimer.h:sleepUntil", "docs/reference/core/qtimer.md"]}
{"id": "C81", "title": "sleepFor() sleeps for any duration (violated)", "statement": "sleepFor(d) suspends however long d is.", "quantifier": "all durations", "why_tests_cant": "Takes 25 days.", "anchors": ["qcoro/core/qcorotimer.h:sleepFor"]}
{"id": "C82", "title": "Destroying a coroutine that moves to a thread (violated)", "statement": "A coroutine suspended in co_await moveToThread(t) can be destroyed at any time; its memory is not used afterwards.", "quantifier": "all histories", "why_tests_cant": "Use after free; depends on the interleaving.", "anchors": ["qcoro/core/qcorothread.cpp:ThreadContext"]}
{"id": "C83", "title": "Destroying a coroutine whose move needs no waiting", "statement": "A coroutine destroyed during co_await moveToThread(t) is not used afterwards, unless it was destroyed after it had connected to started() and before the wake-up event was posted.", "quantifier": "all histories", "why_tests_cant": "All interleavings of the threads.", "anchors": ["qcoro/core/qcorothread.cpp:ThreadContext"]}
{"id": "C84", "title": "Awaiting a QFuture never blocks the thread (violated)", "statement": "co_await on a QFuture, result(), waitForFinished() and takeResult() do not block the thread, also if the future has been canceled but is still running.", "quantifier": "all future histories", "why_tests_cant": "Depends on when the future is canceled.", "anchors": ["qcoro/core/qcorofuture.h:WaitForFinishedOperationBase"]}
{"id": "C85", "title": "Awaiting a canceled QFuture is defined (violated)", "statement": "co_await on a QFuture<T> that is canceled has defined behaviour.", "quantifier": "all future histories", "why_tests_cant": "Undefined behaviour.", "anchors": ["qcoro/core/qcorofuture.h:WaitForFinishedOperationImplT"]}
{"id": "C86", "title": "takeResult() by several coroutines (violated)", "statement": "Several coroutines can await takeResult() (or result() after it) of the same future.", "quantifier": "all future histories", "why_tests_cant": "Undefined behaviour.", "anchors": ["qcoro/core/qcorofuture.h:TakeResultOperation"]}
{"id": "C87", "title": "Destroying a coroutine that awaits a QFuture (violated)", "statement": "A coroutine destroyed while it awaits a QFuture is not resumed afterwards.", "quantifier": "all future histories", "why_tests_cant": "Use after free; depends on the schedule.", "anchors": ["qcoro/core/qcorofuture.h:await_suspend"]}
{"id": "C88", "title": "Several coroutines can await the same D-Bus call (violated)", "statement": "Every coroutine that awaits a QDBusPendingCall or QDBusPendingReply is resumed once the call has finished, however many coroutines await it and whenever the reply is received.", "quantifier": "all call histories, any number of awaiters", "why_tests_cant": "Depends on the interleaving with the thread that receives the reply.", "anchors": ["qcoro/dbus/qcorodbuspendingcall.cpp", "qcoro/dbus/qcorodbuspendingreply.h"]}
{"id": "C89", "title": "waitForFinished() of a finished D-Bus call does not suspend (violated)", "statement": "As documented, co_await qCoro(call).waitForFinished() returns immediately if the QDBusPendingCall has finished.", "quantifier": "all call histories", "why_tests_cant": "All histories.", "anchors": ["qcoro/dbus/qcorodbuspendingcall.cpp:waitForFinished", "qcoro/dbus/qcorodbuspendingcall.h"]}
{"id": "C90", "title": "waitForFinished() of a default constructed D-Bus call (violated)", "statement": "qCoro(QDBusPendingCall{...}).waitForFinished() returns if there is no call, i.e. isFinished() is true from the beginning.", "quantifier": "all call histories", "why_tests_cant": "Hang.", "anchors": ["qcoro/dbus/qcorodbuspendingcall.cpp:waitForFinished"]}
{"id": "C91", "title": "Destroying a coroutine that awaits a D-Bus call (violated)", "statement": "A coroutine destroyed while it awaits a QDBusPendingCall or QDBusPendingReply is not resumed afterwards.", "quantifier": "all call histories", "why_tests_cant": "Use after free; depends on the schedule.", "anchors": ["qcoro/dbus/qcorodbuspendingcall.cpp:await_suspend", "qcoro/dbus/qcorodbuspendingreply.h"]}
{"id": "C92", "title": "Every callback of a QmlTask is passed its result (violated)", "statement": "However often then() and await() are called on a QmlTask, every function and every listener is passed the task's result.", "quantifier": "all histories, any number of callbacks", "why_tests_cant": "Ranges over numbers and orders of registrations.", "anchors": ["qcoro/qml/qcoroqmltask.cpp:then,await", "qcoro/impl/taskbase.h:await_resume"]}
{"id": "C93", "title": "Copies of a QmlTask can be used (violated)", "statement": "then() and await() have defined behaviour on a QmlTask whatever copies of it exist.", "quantifier": "all histories, any number of copies", "why_tests_cant": "Undefined behaviour (Q_UNREACHABLE).", "anchors": ["qcoro/qml/qcoroqmltask.cpp:QmlTaskPrivate"]}
{"id": "C94", "title": "A default-constructed QmlTask can be used (violated)", "statement": "then() and await() on a default-constructed QmlTask have defined behaviour and do nothing.", "quantifier": "all histories", "why_tests_cant": "Undefined behaviour.", "anchors": ["qcoro/qml/qcoroqmltask.cpp:await"]}
{"id": "C95", "title": "Image provider reports every image exactly once", "statement": "For every requested image QCoro::ImageProvider's response emits finished() exactly once, when asyncRequestImage() ends with an image (also if that happens before the response is returned), never otherwise; from then on textureFactory() is made from that image, before from none.", "quantifier": "all histories of any number of requests, up to the use of a deleted response", "why_tests_cant": "All interleavings of coroutines and requests.", "anchors": ["qcoro/quick/qcoroimageprovider.cpp"]}
{"id": "C96", "title": "Image responses can be deleted (violated)", "statement": "The engine can delete a response while asyncRequestImage() has not ended; it is not used afterwards.", "quantifier": "all histories", "why_tests_cant": "Use after free; depends on when the coroutine ends.", "anchors": ["qcoro/quick/qcoroimageprovider.cpp:requestImageResponse"]}
{"id": "C97", "title": "co_await / waitFor of a Task or LazyTask is defined exactly when it is awaitable", "statement": "co_await and waitFor() of a live Task always have defined behaviour; of a LazyTask exactly if it holds a coroutine that was not started yet or whose body has ended.", "quantifier": "all programs, all reachable states", "why_tests_cant": "A matter of every history of starting and awaiting the same task.", "anchors": ["qcoro/impl/task.h", "qcoro/impl/lazytask.h", "qcoro/impl/waitfor.h"]}
{"id": "C98", "title": "A coroutine nobody refers to is destroyed iff its body has ended", "statement": "If no Task or LazyTask object refers to a coroutine, then its frame has been destroyed iff its body has ended (outside of the end itself); a LazyTask dropped before its start is never destroyed.", "quantifier": "all programs, all reachable states", "why_tests_cant": "Leaks and double destructions depend on every order of drop and end.", "anchors": ["qcoro/impl/taskpromisebase.h", "qcoro/impl/taskbase.h", "qcoro/impl/taskfinalsuspend.h"]}
{"id": "C99", "title": "All undefined behaviour of Task and LazyTask", "statement": "If nobody else quits the nested event loop of waitFor(), the only undefined behaviour the library adds to the program's own (using a destroyed task object, an exception leaving a plain function) is awaiting a LazyTask that was started and has not ended, or that holds no coroutine.", "quantifier": "all programs, all reachable states", "why_tests_cant": "Absence of undefined behaviour over all histories.", "anchors": ["qcoro/impl/taskbase.h", "qcoro/impl/lazytask.h", "qcoro/impl/waitfor.h"]}
{"id": "C100", "title": "Generator operations are defined exactly while the body is suspended before its end", "statement": "begin() has defined behaviour iff the generator has a coroutine that is suspended and has not ended; ++ also for the end iterator; * and writing through * iff the coroutine is suspended at a co_yield.", "quantifier": "all programs, all reachable states", "why_tests_cant": "Undefined behaviour depends on the whole history of the generator.", "anchors": ["qcoro/qcorogenerator.h"]}
{"id": "C101", "title": "AsyncGenerator operations are defined exactly at a co_yield or before the start", "statement": "co_await begin() has defined behaviour iff the generator holds no coroutine, or one that was not started or is suspended at a co_yield; co_await ++it and *it iff the iterator's coroutine is suspended at a co_yield.", "quantifier": "all programs, all reachable states, all schedules of completions", "why_tests_cant": "Undefined behaviour depends on the whole history of the generator.", "anchors": ["qcoro/qcoroasyncgenerator.h"]}
{"id": "C102", "title": "Destruction of an AsyncGenerator while it waits", "statement": "Destroying an AsyncGenerator has defined behaviour iff its body is not running; afterwards nothing of the body runs, and the only undefined behaviour this can lead to is the completion of something that cannot forget the destroyed coroutine (a Task).", "quantifier": "all programs, all reachable states, all schedules of completions", "why_tests_cant": "All orders of destruction and completion.", "anchors": ["qcoro/qcoroasyncgenerator.h"]}
{"id": "C103", "title": "When a signal await with a timeout ends", "statement": "qCoro(object, signal, timeout) ends without a value as soon as the timeout has passed if the object still exists; it never ends if the object was destroyed before without emitting; it ends at once without a value if the object does not exist at the call.", "quantifier": "all histories of emissions, timeouts and destruction", "why_tests_cant": "All interleavings of timer, signal and destruction.", "anchors": ["qcoro/core/qcorosignal.h"]}
{"id": "C104", "title": "Exact sleeping times", "statement": "sleepFor(d) with 0 <= d < 2^31 ms, and sleepUntil(w) with w that much ahead on steady_clock, return no earlier than the duration rounded down to whole milliseconds, and do return then if the event loop is free; a duration of at most -1 ms returns at once.", "quantifier": "all durations in range, all schedules", "why_tests_cant": "All durations and times.", "anchors": ["qcoro/core/qcorotimer.cpp:sleepFor", "qcoro/core/qcorotimer.h:sleepUntil"]}
{"id": "C105", "title": "Awaiting a QFuture: when it blocks, is undefined, or resumes a destroyed coroutine", "statement": "co_await future suspends iff the future is running and neither canceled nor failed. Otherwise, and when resumed, it throws the reported exception if there is one; else it blocks iff the future was canceled but has not finished and (for result()) has no result; it is undefined iff a value is wanted and the future finished without one or its result was taken; else it yields the result. A destroyed awaiter is resumed iff it was destroyed while it waited.", "quantifier": "all interleavings of any number of awaiters with the computing thread", "why_tests_cant": "All interleavings, including between await_ready() and await_suspend().", "anchors": ["qcoro/core/qcorofuture.h"]}
{"id": "C106", "title": "Which awaits of a D-Bus call end", "statement": "A suspended await of a D-Bus call is resumed with the reply iff it was suspended before the watchers were notified; it can be too late only if the reply had been received and another watcher existed before. A destroyed coroutine is resumed iff it was destroyed in a co_await that was not late; a destroyed waitForFinished() is never resumed.", "quantifier": "all interleavings of any number of awaiters with the thread that receives the reply", "why_tests_cant": "All interleavings.", "anchors": ["qcoro/dbus/qcorodbuspendingcall.cpp", "qcoro/dbus/qcorodbuspendingreply.h"]}
{"id": "C107", "title": "When QmlTask is defined, and what its callbacks get", "statement": "then() is undefined iff a copy of the QmlTask exists, await() iff a copy exists or the QmlTask has no task; nothing else is. A callback is passed the result iff it is the first callback of its task to run, else a null value.", "quantifier": "all histories of any number of QmlTasks, copies, callbacks", "why_tests_cant": "All histories.", "anchors": ["qcoro/qml/qcoroqmltask.cpp"]}
{"id": "C108", "title": "When the image provider reports and when it uses a deleted response", "statement": "A step emits finished() of a response iff the coroutine of its request ends in it with an image and the response exists; a deleted response is used iff its coroutine ends with an image after the deletion.", "quantifier": "all histories of any number of requests", "why_tests_cant": "All histories.", "anchors": ["qcoro/quick/qcoroimageprovider.cpp"]}
{"id": "C109", "title": "When waitForReadyRead() ends and what it says", "statement": "waitForReadyRead() returns false at once if the device is not readable, true at once if there is data (or the socket is not connected, or the reply finished); else true by the first of the waking signals and false by the timeout, not before; it does end then. With a plain device, true after a wait means readyRead or aboutToClose was emitted.", "quantifier": "all histories of the device, all timeouts", "why_tests_cant": "All histories.", "anchors": ["qcoro/core/qcoroiodevice.cpp:waitForReadyRead"]}
{"id": "C110", "title": "A test coroutine stops at a failed check", "statement": "A test function that uses QTest only by the QCORO_ macros does nothing more (no co_await, no statement, no check) after a failed QCORO_VERIFY/VERIFY2/COMPARE/TEST, a QCORO_FAIL, a QCORO_SKIP, or a check whose expected failure is in mode Abort: it returns at once. A check goes on with the next statement iff it passes and no failure is expected, or one is expected in mode Continue.", "quantifier": "all test functions built from effects with arbitrary answers, blocks, try/catch, co_return, exceptions and the macros, all runs", "why_tests_cant": "All bodies, answers and nestings of try/catch around the macros.", "anchors": ["qcoro/test/qcorotest.h"]}
{"id": "C111", "title": "QCORO_VERIFY_THROWS_EXCEPTION", "statement": "QCORO_VERIFY_THROWS_EXCEPTION(T, statement) goes on after itself iff the statement throws a T; if the statement ends normally or throws something else, a failure is reported and the test function returns; if a check within the statement fails, the test function returns.", "quantifier": "all statements (programs), all types, all contexts", "why_tests_cant": "All statements, including ones with macros and try/catch within.", "anchors": ["qcoro/test/qcorotest.h"]}
{"id": "C112", "title": "Exactly when moveToThread() goes on and returns", "statement": "co_await moveToThread(t) is resumed, on t, exactly when t's event loop runs and the move is on its way to t: t was running or starting when isRunning() was asked, or had finished when isFinished() was asked, or it was started after the connection to started() was made and the coroutine's own thread has handled that. Otherwise (in particular if t was started between the checks and the connection) it is stuck.", "quantifier": "all interleavings of any threads, all histories of starts and finishes", "why_tests_cant": "All interleavings.", "anchors": ["qcoro/core/qcorothread.cpp:moveToThread", "qcoro/core/qcorothread.cpp:waitForStarted"]}
{"id": "C113", "title": "Exactly when destroying a moving coroutine is undefined", "statement": "After a coroutine was destroyed in co_await moveToThread(t), its frame is used again iff it had connected to started() but not posted the event to t, t was started after the connection, and the thread the coroutine was on runs.", "quantifier": "all interleavings, all points of destruction", "why_tests_cant": "All interleavings and points of destruction.", "anchors": ["qcoro/core/qcorothread.cpp:moveToThread"]}
{"id": "C114", "title": "Exactly when a signal listener goes wrong", "statement": "As long as nothing has gone wrong (no co_await resumed early, no ++it without a value, nothing undefined), a step goes wrong iff it delivers an emission while the consumer, having had to wait at least once, does not wait for the listener; or QTimer::timeout calls a second slot, which happens iff the timeout ended the listener, the consumer had to wait at least twice, the object and the generator exist, and the consumer awaits something else or has finished; or the consumer advances past the end. In all other histories emissions arrive once, in order.", "quantifier": "all histories of emissions, deliveries, time, destruction and consumers", "why_tests_cant": "All interleavings of event loop, object and an arbitrary consumer.", "anchors": ["qcoro/core/qcorosignal.h:QCoroSignalQueue", "qcoro/core/qcorosignal.h:qCoroSignalListener"]}
{"id": "C115", "title": "Coroutines behave like ordinary functions called by cooperative threads", "statement": "A program in which every function is a Task or LazyTask coroutine and every call is co_await f() shows exactly the same behaviour (order of all effects, waits and wake-ups, outcomes passed on) as the same program with ordinary calls run by cooperative threads; control returns to the event loop exactly when no thread runs; nothing is undefined; when nothing waits any more, no coroutine frame and no Task is left.", "quantifier": "all programs, any depth of calls and recursion, any number of threads, any order of completions", "why_tests_cant": "All programs and schedules; the equality is of sets of behaviours.", "anchors": ["qcoro/qcorotask.h", "qcoro/impl/task.h", "qcoro/impl/taskpromisebase.h", "qcoro/impl/taskfinalsuspend.h", "qcoro/impl/lazytask.h"]}
{"id": "C116", "title": "Exactly when quitting the loop of a waitFor() is undefined", "statement": "If the nested event loop of a waitFor() is quit from outside before its task has ended, a waitFor() with a result reads a result that does not exist, and one without a result returns as if the task had ended; when the task of such a waitFor() then resumes its waiters, memory of the returned call is written. Nothing else of waitFor() is undefined in these ways.", "quantifier": "all programs, nested waitFor() calls, all schedules and points of quitting", "why_tests_cant": "All schedules.", "anchors": ["qcoro/impl/waitfor.h:waitFor", "qcoro/impl/waitfor.h:runCoroutine"]}
{"id": "C117", "title": "Exactly when a read or write is undefined because the device is gone", "statement": "Called on a null or destroyed device, every function of QCoroIODevice and also co_await device (which checks for null) is undefined at once. If the device is destroyed during a read, the read is undefined if the wait was ended by a signal emitted before, returns nothing if ended by the timeout, and otherwise waits for ever; it never returns data. A write() is undefined iff its wait ends after the device or the wrapper object was destroyed and fewer bytes than accepted were reported; if all were reported it returns. Nothing else makes them undefined.", "quantifier": "all devices and wrapper classes, all histories of signals, timers and destruction", "why_tests_cant": "All histories; the points of destruction relative to emission, posting and resumption.", "anchors": ["qcoro/core/qcoroiodevice.cpp:readAll", "qcoro/core/qcoroiodevice.cpp:write", "qcoro/core/qcoroiodevice.cpp:ReadOperation"]}
{"id": "C118", "title": "What the result of write() says about the device", "statement": "If the device emits bytesWritten(n) only for bytes taken from its write buffer, the result of QCoroIODevice::write() is at most the number of bytes that left the buffer since the data was accepted. If the buffer was empty before, the result is at most the number of bytes accepted; if it is that number, the buffer is empty when write() returns; if it is less, the device is no longer writable or connected.", "quantifier": "all truthful devices and wrapper classes, all histories of signals, all sizes", "why_tests_cant": "All histories of reports, in any portions, several of them between two resumptions.", "anchors": ["qcoro/core/qcoroiodevice.cpp:write", "qcoro/core/qcoroiodevice.cpp:waitForBytesWritten", "qcoro/core/qcoroiodevice_p.h:WaitSignalHelper"]}
{"id": "C119", "title": "When write() returns the number of bytes accepted, they were written (violated)", "statement": "If QCoroIODevice::write(buffer) returns the number of bytes of buffer that were accepted, these bytes are no longer in the write buffer of the device.", "quantifier": "all devices, also with bytes of earlier writes in the buffer", "why_tests_cant": "The bytes reported may belong to earlier writes: depends on the history.", "anchors": ["qcoro/core/qcoroiodevice.cpp:write"]}
{"id": "C120", "title": "write() returns when every report comes in time", "statement": "QCoroIODevice::write() returns once bytesWritten() has reported as many bytes as were accepted, provided that each report comes while write() waits: none during QIODevice::write() itself, none between a signal that ends a wait and the resumption.", "quantifier": "all devices and wrapper classes except QNetworkReply, all histories of signals", "why_tests_cant": "Termination for all histories.", "anchors": ["qcoro/core/qcoroiodevice.cpp:write", "qcoro/core/qcoroiodevice_p.cpp"]}
{"id": "C121", "title": "A frame generator does not disturb the user's other co_awaits (violated)", "statement": "While the user of a QWebSocket frame or message generator is suspended in another co_await, that co_await returns only when what it waits for is done. (After the first report was swallowed, C77, the next report or the timeout of the generator resumes the user in the other co_await and is lost as well.)", "quantifier": "all histories of frames, state changes, time, deliveries and users", "why_tests_cant": "All interleavings of the event loop with an arbitrary user coroutine.", "anchors": ["qcoro/websockets/qcorowebsocket.cpp:watcherGenerator", "qcoro/qcoroasyncgenerator.h"]}
{"id": "C122", "title": "A QWebSocketServer can be used after nextPendingConnection() returned (violated)", "statement": "After co_await qCoro(server).nextPendingConnection() returned, clients can connect to the server. (Whenever the call had to wait, whatever it returned, the next client that connects while the server exists is undefined behaviour; only calls that did not wait, or during which the server was destroyed, leave nothing behind.)", "quantifier": "all servers, all histories of clients, time-outs and destruction, all continuations of the caller", "why_tests_cant": "All histories after the return, of any length.", "anchors": ["qcoro/websockets/qcorowebsocketserver.cpp:nextPendingConnection", "qcoro/websockets/qcorowebsocketserver.cpp:QCoroWebSocketServerSignalListener"]}
{"id": "C123", "title": "Any number of coroutines may await the same object at once", "statement": "Coroutines that co_await qCoro(obj, signal, timeout), a QNetworkReply, a QTimer or a QIODevice at the same time, on one object, do not disturb each other: each co_await returns once, with the arguments of an emission of a signal it awaits made since it suspended, the first one unless emissions are nested (or, for a timeout, with nothing, not before it and not after the object was destroyed). An emission wakes all that await it: once it is over, delivering the pending events resumes each of them; co_await timer has then returned already.", "quantifier": "any number of coroutines and awaits, all interleavings of emissions (also nested), deliveries, time, destruction of coroutines and of the object", "why_tests_cant": "All interleavings of any number of awaiters.", "anchors": ["qcoro/core/qcorosignal.h:QCoroSignal", "qcoro/network/qcoronetworkreply.cpp:WaitForFinishedOperation", "qcoro/core/qcorotimer.cpp:WaitForTimeoutOperation", "qcoro/core/qcoroiodevice.cpp:ReadOperation"]}
{"id": "C124", "title": "A coroutine suspended in qCoro(obj, signal) or co_await reply can be destroyed", "statement": "Destroying a coroutine suspended in co_await qCoro(obj, signal, timeout) or co_await reply, before or after the signal is emitted, is safe: it is never resumed afterwards, the other coroutines are not affected, and no connection to the object and no event is left behind. Undefined behaviour needs a coroutine destroyed in co_await timer or co_await device.", "quantifier": "all histories, all points of destruction", "why_tests_cant": "All interleavings and points of destruction.", "anchors": ["qcoro/core/qcorosignal.h:~QCoroSignalBase", "qcoro/core/qcorosignal.h:QCoroSignal", "qcoro/network/qcoronetworkreply.cpp:WaitForFinishedOperation"]}
{"id": "C125", "title": "A coroutine suspended in co_await timer or co_await device can be destroyed (violated)", "statement": "Destroying a coroutine suspended in co_await timer or co_await device leaves nothing behind that refers to it. (The awaiter stays connected: the next timeout, readyRead or aboutToClose of the object, however late, is undefined behaviour; for a device that has become ready, the pending single-shot timer resumes the destroyed coroutine.)", "quantifier": "all histories before, between and after", "why_tests_cant": "All continuations after the destruction.", "anchors": ["qcoro/core/qcorotimer.cpp:WaitForTimeoutOperation", "qcoro/core/qcoroiodevice.cpp:OperationBase"]}
{"id": "C126", "title": "co_await of a Task whose coroutine ends on another thread returns (violated)", "statement": "If a coroutine co_awaits a Task and the Task's coroutine, moved to another thread (QCoro::moveToThread), ends there, the co_await returns. (Whenever the coroutine ends between await_ready() and await_suspend(), the awaiting coroutine is never resumed; if it ends during await_suspend(), both threads access the vector of awaiting coroutines at once, which is undefined.)", "quantifier": "all histories before, all interleavings of the threads", "why_tests_cant": "Depends on the interleaving of two threads; a test meets the window by chance only.", "anchors": ["qcoro/impl/taskawaiterbase.h:await_ready", "qcoro/impl/taskawaiterbase.h:await_suspend", "qcoro/impl/taskpromisebase.h:addAwaitingCoroutine", "qcoro/impl/taskfinalsuspend.h:await_suspend"]}
{"id": "C127", "title": "What becomes of a co_await of a Task that ends on another thread, exactly", "statement": "A co_await that returns does so after the coroutine has ended: on its own thread if it found the coroutine ended, else on the coroutine's last thread. A co_await that suspends before the end of the callee's final_suspend() is resumed by the callee's last thread before that gives up its reference, which it reaches without any other thread; one that suspends later never returns.", "quantifier": "any number of awaiting coroutines and threads, all interleavings without a simultaneous access", "why_tests_cant": "All interleavings of any number of threads.", "anchors": ["qcoro/impl/taskawaiterbase.h:await_suspend", "qcoro/impl/taskpromisebase.h:final_suspend", "qcoro/impl/taskfinalsuspend.h:await_suspend"]}
{"id": "C128", "title": "A Task may be destroyed on any thread", "statement": "Whatever threads the Task is destroyed and its coroutine ends on, and in whatever order their steps come: the frame is destroyed exactly once, when both have happened, no earlier than the last resumption, and nothing accesses it afterwards. Two threads access the vector of awaiting coroutines at once only if a coroutine executes co_await on the Task at that moment.", "quantifier": "any number of awaiting coroutines and threads, all interleavings", "why_tests_cant": "All interleavings of any number of threads.", "anchors": ["qcoro/impl/taskpromisebase.h:derefCoroutine", "qcoro/impl/taskbase.h:~TaskBase", "qcoro/impl/taskfinalsuspend.h:await_suspend"]}
{"id": "C129", "title": "Exactly which connections nextPendingConnection() takes and loses", "statement": "Of a QWebSocketServer whose queue of pending connections only the server extends: a call of nextPendingConnection() that need not wait takes the oldest pending connection and returns it. One that waits takes, at each newConnection emitted until it returns, the oldest pending connection: those that came are those it took and then, in order, those still pending. If it returns a connection that is the first it took; all others it took are lost, also one announced just when the timeout fires.", "quantifier": "all servers, all histories of clients, time-outs and destruction", "why_tests_cant": "All histories, in particular several emissions before the resumption.", "anchors": ["qcoro/websockets/qcorowebsocketserver.cpp:nextPendingConnection", "qcoro/websockets/qcorowebsocketserver.cpp:QCoroWebSocketServerSignalListener"]}
{"id": "C130", "title": "waitFor() of a Task that ends on another thread returns (violated)", "statement": "If QCoro::waitFor() waits for a Task whose coroutine, moved to another thread (QCoro::moveToThread), ends there, waitFor() returns. (If the coroutine tells the event loop to quit after waitFor() has looked whether it has finished and before the loop is started, waitFor() never returns; in every other case it must.)", "quantifier": "all interleavings of the two threads, all events of the waiting thread", "why_tests_cant": "Depends on the interleaving of two threads; a test meets the window by chance only.", "anchors": ["qcoro/impl/waitfor.h:waitFor", "qcoro/impl/waitfor.h:runCoroutine"]}
{"id": "C131", "title": "The outcome of waitFor() of a Task that ends on another thread", "statement": "waitFor() returns or throws at most once, with the value or exception with which the coroutine ended, and only after that was stored and coroutineFinished was set.", "quantifier": "all interleavings of the two threads, all events of the waiting thread, all outcomes", "why_tests_cant": "All interleavings of two threads.", "anchors": ["qcoro/impl/waitfor.h:waitFor", "qcoro/impl/waitfor.h:runCoroutine"]}
{"id": "C132", "title": "The thread on which a Task ends uses nothing that waitFor() has destroyed (violated)", "statement": "While the other thread still runs QEventLoop::quit() for waitFor(), the QEventLoop (and the rest of the context on the stack of waitFor()) exists. (waitFor() may return as soon as coroutineFinished or the loop's exit flag is set; whenever it returns before quit() is over, the next step of the ending thread is a use after free. It happens in no other case.)", "quantifier": "all interleavings of the two threads, all events of the waiting thread", "why_tests_cant": "Depends on the interleaving of two threads.", "anchors": ["qcoro/impl/waitfor.h:WaitContext", "qcoro/impl/waitfor.h:runCoroutine", "qcoro/impl/waitfor.h:waitFor"]}
{"id": "C133", "title": "Any number of coroutines may read from one device: no byte is lost or read twice", "statement": "If any number of coroutines call QCoroIODevice::readAll/read/readLine or co_await device on one QIODevice, each call returns at most once, and the bytes returned, in the order of the returns, together with what others read or closing dropped, are the bytes that came, in order. Each call returns what the Qt function returns for the bytes unread at that time, at once if there are any or the device is closed, else after a readyRead or aboutToClose emitted since the call; or nothing, after its timeout. A coroutine may be destroyed while it waits in a member function.", "quantifier": "any number of coroutines, calls, timeouts and destructions, all arrivals of bytes, emissions and orders of delivery", "why_tests_cant": "All interleavings of any number of readers.", "anchors": ["qcoro/core/qcoroiodevice.cpp:readAll", "qcoro/core/qcoroiodevice.cpp:read", "qcoro/core/qcoroiodevice.cpp:readLine", "qcoro/core/qcoroiodevice.cpp:ReadOperation"]}
{"id": "C134", "title": "When one of many readers gets nothing", "statement": "A read that asks for at least one byte and returns nothing was called on or woken by a closed device, or returns after its timeout, or was woken after all that had come since the call had been read by others (or nothing had come). A read is suspended only on an open device with nothing to read.", "quantifier": "any number of coroutines, all histories", "why_tests_cant": "All interleavings of any number of readers.", "anchors": ["qcoro/core/qcoroiodevice.cpp:waitForReadyRead", "qcoro/core/qcoroiodevice.cpp:read"]}
{"id": "C135", "title": "A read without timeout on an open device returns data when data comes, whoever else reads (violated)", "statement": "If a coroutine is suspended in a read function without timeout and data arrives, the read returns data. (From every state in which another coroutine waits to read everything, that coroutine may get all of the data, and the first is resumed all the same and returns an empty QByteArray, as if its timeout were over.)", "quantifier": "all histories in which two coroutines wait", "why_tests_cant": "All states with two or more readers.", "anchors": ["qcoro/core/qcoroiodevice.cpp:waitForReadyRead", "qcoro/core/qcoroiodevice.cpp:read"]}
{"id": "C136", "title": "Which of many reads return", "statement": "Every emission of readyRead or aboutToClose wakes every coroutine suspended in a read of the device; one that was woken returns when its event is delivered, which is possible from then on, whatever the others do; one that was not woken returns only after its timeout, if it has one, and then may. One that is woken and that nobody forestalls (reads or drops bytes since it was suspended) reads from what has come since.", "quantifier": "any number of coroutines, all histories", "why_tests_cant": "All interleavings of any number of readers.", "anchors": ["qcoro/core/qcoroiodevice.cpp:waitForReadyReadImpl", "qcoro/core/qcoroiodevice_p.h:WaitSignalHelper", "qcoro/core/qcoroiodevice.cpp:OperationBase"]}
{"id": "C137", "title": "What write() returns when several coroutines write to one device", "statement": "If any number of coroutines call QCoroIODevice::write() on one QIODevice, each call returns at most once, at most the number of bytes that left the write buffer since the call (exactly that number if nothing is reported while a coroutine that was woken has not been resumed), and no less than was accepted unless the device was closed.", "quantifier": "any number of coroutines, all sizes, all reports, closings, destructions and orders of delivery", "why_tests_cant": "All interleavings of any number of writers.", "anchors": ["qcoro/core/qcoroiodevice.cpp:write", "qcoro/core/qcoroiodevice.cpp:waitForBytesWritten", "qcoro/core/qcoroiodevice_p.h:WaitSignalHelper"]}
{"id": "C138", "title": "When one of several coroutines is told that its bytes were written, they were (violated)", "statement": "If several coroutines write to one device and write() returns the number of bytes accepted or more, these bytes have left the write buffer. (Whenever the buffer is not empty, a coroutine that writes no more than is in it is told by the next report that its bytes were written, although none of them has left.)", "quantifier": "all states in which the buffer is not empty, all sizes", "why_tests_cant": "All states.", "anchors": ["qcoro/core/qcoroiodevice.cpp:write"]}
{"id": "C139", "title": "Which writes return when several coroutines write", "statement": "If all accepted bytes go to the write buffer and nothing is reported while a coroutine that was woken has not been resumed, no write() loops for ever, and when the buffer is empty every coroutine still suspended in write() has been woken and goes on as soon as its event is delivered. A write() that loops for ever has missed a report, and blocks its thread.", "quantifier": "any number of coroutines, all histories", "why_tests_cant": "Termination for all histories of any number of writers.", "anchors": ["qcoro/core/qcoroiodevice.cpp:write", "qcoro/core/qcoroiodevice.cpp:waitForBytesWritten"]}
{"id": "C140", "title": "waitForStarted() and waitForFinished() notice what the thread does meanwhile (violated)", "statement": "If a thread starts or finishes while co_await qCoro(thread).waitForStarted() or waitForFinished() is under way, the co_await returns. (Whenever a running thread ends between isRunning() and the connection to finished(), or starts between the first check and the connection to started(), the co_await does not return until the thread is started again, or returns false at its timeout; in every other case the signal wakes the coroutine.)", "quantifier": "all histories of starts and ends of the thread before, between and after every step of the call", "why_tests_cant": "Depends on the interleaving of two threads; a test meets the window by chance only.", "anchors": ["qcoro/core/qcorothread.cpp:waitForStarted", "qcoro/core/qcorothread.cpp:waitForFinished", "qcoro/core/qcorosignal.h:QCoroSignal"]}
{"id": "C141", "title": "What waitForStarted() and waitForFinished() return, and why", "statement": "Each call returns at most once: true if the first check found the thread started (finished) or the signal was emitted since the connection; false if the second check found it finished (not running) or at the timeout. A call that returns true is about a thread that was started (has finished).", "quantifier": "all histories of starts and ends of the thread, all calls", "why_tests_cant": "All interleavings.", "anchors": ["qcoro/core/qcorothread.cpp:waitForStarted", "qcoro/core/qcorothread.cpp:waitForFinished"]}
{"id": "C142", "title": "waitForFinished() without a timeout returns false only for a thread that is not started (violated)", "statement": "co_await qCoro(thread).waitForFinished() of a running thread does not return false. (It returns false, which means not started, whenever the thread ends between isFinished() and isRunning(); otherwise only if the thread has never been started.)", "quantifier": "all histories of starts and ends of the thread, all calls", "why_tests_cant": "Depends on the interleaving of two threads.", "anchors": ["qcoro/core/qcorothread.cpp:waitForFinished"]}
{"id": "C143", "title": "co_await of a LazyTask whose coroutine ends on another thread", "statement": "If a LazyTask is not awaited again before it has ended, then, whatever threads its coroutine runs and ends on and the LazyTask is destroyed on: nothing is undefined, no two threads access the vector of awaiting coroutines at once (unlike Task, C126), the co_await starts the coroutine and returns once, after its end; a later co_await returns at once; the frame is destroyed once, when the coroutine has ended and the LazyTask is destroyed. A second coroutine that awaits it while the body runs is undefined behaviour.", "quantifier": "any number of coroutines and threads, all interleavings", "why_tests_cant": "All interleavings of any number of threads.", "anchors": ["qcoro/impl/lazytask.h:operator co_await", "qcoro/impl/taskawaiterbase.h:await_suspend", "qcoro/impl/taskfinalsuspend.h:await_suspend", "qcoro/impl/taskpromisebase.h:derefCoroutine"]}
{"id": "C144", "title": "Each connection goes to one of the coroutines that wait for it, in order", "statement": "If several coroutines call waitForNewConnection() of one server, the connections they return, those others take and those dropped by close() are, in order, the connections that came, none twice. A call returns nullptr after its timeout; otherwise at once, the oldest pending connection, or nullptr if the server does not listen; or, once newConnection was emitted, the oldest pending connection if there is one.", "quantifier": "any number of coroutines and connections, all histories of calls, arrivals, emissions, closings, timeouts and destructions", "why_tests_cant": "All interleavings of any number of coroutines.", "anchors": ["qcoro/network/qcorotcpserver.cpp:waitForNewConnection", "qcoro/core/qcorosignal.h:QCoroSignal"]}
{"id": "C145", "title": "When a call of waitForNewConnection() that is not alone returns nullptr", "statement": "waitForNewConnection() returns nullptr only if the server did not listen when it was called, the timeout is over, or newConnection was emitted meanwhile and all connections that came since the call was suspended have been taken by others or dropped. A call is suspended only while the server listens and no connection is pending.", "quantifier": "any number of coroutines and connections, all histories", "why_tests_cant": "All interleavings of any number of coroutines.", "anchors": ["qcoro/network/qcorotcpserver.cpp:waitForNewConnection"]}
{"id": "C146", "title": "A call of waitForNewConnection() without timeout returns a connection (violated)", "statement": "If the server listens and is not closed, co_await qCoro(server).waitForNewConnection() without a timeout does not return nullptr. (Whenever two coroutines wait, one connection is enough for one of them to return nullptr.)", "quantifier": "all states in which two coroutines wait", "why_tests_cant": "All states.", "anchors": ["qcoro/network/qcorotcpserver.cpp:waitForNewConnection"]}
{"id": "C147", "title": "Which calls of waitForNewConnection() return", "statement": "Once newConnection is emitted all coroutines suspended in waitForNewConnection() of that server return as soon as their event is delivered. Nothing else wakes them, except their timeout: not a close() of the server, nor a connection that others take. One that nobody forestalls (takes or drops a connection since it was suspended) returns the first connection that came.", "quantifier": "any number of coroutines, all histories", "why_tests_cant": "All histories of any number of coroutines.", "anchors": ["qcoro/network/qcorotcpserver.cpp:waitForNewConnection", "qcoro/core/qcorosignal.h:handleTimeout"]}
{"id": "C148", "title": "Each connection of a QWebSocketServer is taken once, and what each of the coroutines that wait for one gets", "statement": "If several coroutines call nextPendingConnection() of one QWebSocketServer, the connections their calls and listeners take, those others take and those dropped by close() are, in order, the connections that came, none twice. A call returns nullptr after its timeout; or what its listener took at the first newConnection since it was suspended (nullptr if closed came first); or at once, the oldest pending connection, or nullptr if the server does not listen. It is suspended only while the server listens and none is pending.", "quantifier": "any number of coroutines and connections, all histories of calls, arrivals, emissions, closings, timeouts and destructions", "why_tests_cant": "All interleavings of any number of coroutines.", "anchors": ["qcoro/websockets/qcorowebsocketserver.cpp:nextPendingConnection", "qcoro/websockets/qcorowebsocketserver.cpp:QCoroWebSocketServerSignalListener", "qcoro/core/qcorosignal.h:QCoroSignal"]}
{"id": "C149", "title": "When a QWebSocketServer for which several coroutines wait can be used, and who takes what", "statement": "An emission of newConnection is undefined exactly if a call of nextPendingConnection() that was suspended has ended (by return, timeout or destruction), whoever else waits; nothing else is undefined. Otherwise the listeners of all suspended calls, in the order of suspension, take one pending connection each, as long as there are any; also those whose calls have a result already.", "quantifier": "any number of coroutines and connections, all histories", "why_tests_cant": "All histories of any number of coroutines.", "anchors": ["qcoro/websockets/qcorowebsocketserver.cpp:QCoroWebSocketServerSignalListener"]}
{"id": "C150", "title": "A connection of a QWebSocketServer ends one call, and the next one another (violated)", "statement": "If several coroutines wait in nextPendingConnection(), the next connection is returned by one of them and the others go on waiting for the next. (Whenever at least two wait and none has ended before, the next connection makes all of them return, the others with nullptr, and the one after it is undefined behaviour.)", "quantifier": "all states in which two coroutines wait", "why_tests_cant": "All states.", "anchors": ["qcoro/websockets/qcorowebsocketserver.cpp:nextPendingConnection"]}
{"id": "C151", "title": "Which calls of nextPendingConnection() return", "statement": "After newConnection or closed was emitted (unless that is undefined), every suspended call returns as soon as its event is delivered; before, none does. At its timeout a call returns nullptr, also if its listener has taken a connection. The first signal fixes the result: a connection that the listener takes later is not returned by the call.", "quantifier": "any number of coroutines, all histories", "why_tests_cant": "All histories of any number of coroutines.", "anchors": ["qcoro/websockets/qcorowebsocketserver.cpp:nextPendingConnection", "qcoro/core/qcorosignal.h:handleTimeout"]}
