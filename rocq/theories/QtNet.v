(** * The wrappers of sockets, replies, servers, processes, threads and timers, as programs over the machine of QtModel.v.

    Continuation passing style: [f args k] is "k(co_await f(args))". No proofs in this file. The overloads with "int
    timeout_msecs" only convert the timeout. The functions of QIODevice these wrappers inherit are in QtIO.v. *)
From stdpp Require Import list.
From Coq Require Import ZArith.
From Verif Require Import QtModel QtWrap QtObj QtIO.

Section net.
Context {O A : Type}.
Notation wprog := (@wprog qobj sig arg O A).
Notation helper := (@helper qobj sig arg).

(** Selects one signal. *)
Definition only (sg : sig) : sig -> arg -> option arg := λ s a, if decide (s = sg) then Some a else None.

(** co_return (co_await qCoro(object, &signal, timeout)).has_value(); *)
Definition signalled (sg : sig) (to : option nat) (k : bool -> wprog) : wprog := qCoro_timeout (only sg) to (λ r, k (has_value r)).

(** A call of a function of the object before the wait: its effect and the signals it emits are [f]. *)
Definition calling (f : qobj -> qobj * list (sig * arg)) (p : wprog) : wprog := WCall f (λ _, p).

(** ** QCoroAbstractSocket, network/qcoroabstractsocket.cpp *)

(** waitForConnected(timeout), :72-80 *)
Definition sock_waitForConnected (to : option nat) (k : bool -> wprog) : wprog :=
  WGet (λ d, match o_state d with SConnected => k true | _ => signalled Connected to k end).
(** waitForDisconnected(timeout), :86-94 *)
Definition sock_waitForDisconnected (to : option nat) (k : bool -> wprog) : wprog :=
  WGet (λ d, match o_state d with Unconnected => k false | _ => signalled Disconnected to k end).
(** connectToHost(.., timeout), :96-107 *)
Definition sock_connectToHost (f : qobj -> qobj * list (sig * arg)) (to : option nat) (k : bool -> wprog) : wprog :=
  calling f (sock_waitForConnected to k).

(** ** QCoroLocalSocket, network/qcorolocalsocket.cpp *)

(** SocketConnectedHelper(socket, &QLocalSocket::connected), :18-43 *)
Definition connected_helper : helper := Helper
  (λ sg a d, match sg with
    | Connected => Some (false, ABool true, None)
    | StateChanged => if is_unconnected a then Some (false, ABool false, None) else None
    | _ => None end)
  (λ _ _, false) (λ _, false).
(** result.value_or(false) *)
Definition bool_or_false (r : option arg) : bool := match r with Some (ABool b) => b | _ => false end.
(** waitForConnected(timeout), :100-108 *)
Definition local_waitForConnected (to : option nat) (k : bool -> wprog) : wprog :=
  WGet (λ d, match o_state d with SConnected => k true | _ => qCoro_helper connected_helper to (λ r, k (bool_or_false r)) end).
(** waitForDisconnected(timeout), :114-121 *)
Definition local_waitForDisconnected (to : option nat) (k : bool -> wprog) : wprog :=
  WGet (λ d, match o_state d with Unconnected => k false | _ => signalled Disconnected to k end).
(** connectToServer(.., timeout), :123-133 *)
Definition local_connectToServer (f : qobj -> qobj * list (sig * arg)) (to : option nat) (k : bool -> wprog) : wprog :=
  calling f (local_waitForConnected to k).

(** ** QCoroNetworkReply, network/qcoronetworkreply.cpp *)

(** waitForFinished(timeout), :101-109 *)
Definition reply_waitForFinished (to : option nat) (k : bool -> wprog) : wprog :=
  WGet (λ d, if o_finished d then k true else signalled Finished to k).
(** co_await reply: WaitForFinishedOperation, :40-81. The result is the QPointer: [true] if it is not null. The slot is not
    disconnected when it runs, as in QCoroSignal, but the dummy receiver is destroyed with the awaiter. *)
Definition co_await_reply (k : bool -> wprog) : wprog :=
  WAlive (λ b, if b then WGet (λ d, if o_finished d then k true else WAwait MQueued (FromDev (only Finished)) None (λ _, WAlive k)) else k false).

(** ** QCoroTcpServer::waitForNewConnection(timeout), network/qcorotcpserver.cpp:37-51 *)

(** server->nextPendingConnection() *)
Definition take_connection (k : option nat -> wprog) : wprog :=
  WCall (λ d, (set_pending (tail (o_pending d)) d, [])) (λ d, k (head (o_pending d))).
Definition tcp_waitForNewConnection (to : option nat) (k : option nat -> wprog) : wprog :=
  WGet (λ d, if negb (o_listening d) then k None else
    match o_pending d with
    | _ :: _ => take_connection k
    | [] => qCoro_timeout (only NewConnection) to (λ r, if has_value r then take_connection k else k None)
    end).
(** A coroutine that accepts connections, once per element of the list of timeouts. (Not code of QCoro, but the caller in C53.) *)
Fixpoint accept_each (tos : list (option nat)) (acc : list (option nat)) (k : list (option nat) -> wprog) : wprog :=
  match tos with [] => k acc | to :: tos => tcp_waitForNewConnection to (λ c, accept_each tos (acc ++ [c]) k) end.

(** ** QCoroProcess, core/qcoroprocess.cpp *)

(** waitForStarted(timeout), :24-32 *)
Definition proc_waitForStarted (to : option nat) (k : bool -> wprog) : wprog :=
  WGet (λ d, match o_proc d with Starting => signalled Started to k | _ => WGet (λ d', k match o_proc d' with Running => true | _ => false end) end).
(** waitForFinished(timeout), :38-46 *)
Definition proc_waitForFinished (to : option nat) (k : bool -> wprog) : wprog :=
  WGet (λ d, match o_proc d with NotRunning => k false | _ => signalled Finished to k end).
(** start(.., timeout), :48-57 *)
Definition proc_start (f : qobj -> qobj * list (sig * arg)) (to : option nat) (k : bool -> wprog) : wprog :=
  calling f (proc_waitForStarted to k).

(** ** QCoroThread, core/qcorothread.cpp *)

(** waitForStarted(timeout), :90-100 *)
Definition thread_waitForStarted (to : option nat) (k : bool -> wprog) : wprog :=
  WGet (λ d, if o_running d then k true else if o_finished d then k false else signalled Started to k).
(** waitForFinished(timeout), :102-112 *)
Definition thread_waitForFinished (to : option nat) (k : bool -> wprog) : wprog :=
  WGet (λ d, if o_finished d then k true else if negb (o_running d) then k false else signalled Finished to k).

(** ** QCoroTimer, core/qcorotimer.cpp *)

(** co_await timer: WaitForTimeoutOperation, :13-34. await_suspend() tests the timer again; nothing happens between. *)
Definition co_await_timer (k : unit -> wprog) : wprog :=
  WAlive (λ b, if b then WGet (λ d, if o_active d then WAwait MDirect (FromDev (only Timeout)) None (λ _, k tt) else k tt) else k tt).
(** waitForTimeout(), :39-43 *)
Definition timer_waitForTimeout (k : unit -> wprog) : wprog :=
  WGet (λ d, if o_active d then qCoro_signal (only Timeout) (λ _, k tt) else k tt).

(** ** QCoroWebSocket, websockets/qcorowebsocket.cpp *)

(** A helper that exists while a function of the object is called, then awaited. *)
Definition helper_calling (h : helper) (f : qobj -> qobj * list (sig * arg)) (to : option nat) (k : option arg -> wprog) : wprog :=
  WHelper h (calling f (WAwait MQueued FromHelper to (λ r, WDrop (k r)))).
(** WebSocketStateWatcher(socket, ConnectedState), :26-59 *)
Definition open_helper : helper := Helper
  (λ sg a d, match sg with
    | StateChanged => if is_connected a then Some (false, ABool true, None) else None
    | ErrorOccurred => Some (false, ABool false, None)
    | _ => None end)
  (λ _ _, false) (λ _, false).
(** open(url, timeout), open(request, timeout), :148-170 *)
Definition ws_open (f : qobj -> qobj * list (sig * arg)) (to : option nat) (k : bool -> wprog) : wprog :=
  WGet (λ d, match o_state d with SConnected => k true | _ => helper_calling open_helper f to (λ r, k (bool_or_false r)) end).
(** WebSocketSignalWatcher(socket, &QWebSocket::pong), :88-117: ready(std::optional): APong *)
Definition pong_helper : helper := Helper
  (λ sg a d, match sg with
    | Pong => Some (false, a, None)
    | StateChanged => if is_connected a then None else Some (false, APong None, None)
    | _ => None end)
  (λ _ _, true) (λ _, false).
(** ping(payload, timeout), :172-186 *)
Definition ws_ping (f : qobj -> qobj * list (sig * arg)) (to : option nat) (k : option Z -> wprog) : wprog :=
  WGet (λ d, match o_state d with
    | SConnected => helper_calling pong_helper f to (λ r, k match r with Some (APong t) => t | _ => None end)
    | _ => k None end).

(** ** QCoroWebSocketServer, websockets/qcorowebsocketserver.cpp *)

(** QCoroWebSocketServerSignalListener, :15-30: the connection to newConnection has no context object; its slot takes the
    connection from the server. *)
Definition server_helper : helper := Helper
  (λ sg a d, match sg with
    | Closed => Some (false, AConn None, None)
    | NewConnection => Some (false, AConn (head (o_pending d)), Some (set_pending (tail (o_pending d)) d))
    | _ => None end)
  (λ _ _, true) (λ sg, bool_decide (sg = NewConnection)).
(** nextPendingConnection(timeout), :37-51 *)
Definition ws_nextPendingConnection (to : option nat) (k : option nat -> wprog) : wprog :=
  WGet (λ d, if negb (o_listening d) then k None else
    match o_pending d with
    | _ :: _ => take_connection k
    | [] => qCoro_helper server_helper to (λ r, k match r with Some (AConn c) => c | _ => None end)
    end).
End net.
