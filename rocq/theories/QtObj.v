(** * The objects the QCoro wrappers are about, as Qt reports them: devices, sockets, replies, servers, processes, threads, timers.

    One record for all classes; a wrapper only looks at the fields of its class. Which values the fields take, which signals
    are emitted and when is up to the environment (the [denv] of QtModel.exec): almost all theorems hold for every behaviour
    of the object. No proofs in this file. *)
From stdpp Require Import list.
From Coq Require Import ZArith.

Notation byte := nat.
(** QAbstractSocket::SocketState, QLocalSocket::LocalSocketState *)
Inductive sockstate := Unconnected | HostLookup | Connecting | SConnected | Bound | Closing.
(** QProcess::ProcessState *)
Inductive procstate := NotRunning | Starting | Running.

Record qobj := QObj {
  o_open : bool;              (* isOpen() *)
  o_readable : bool;          (* isReadable() *)
  o_writable : bool;          (* isWritable() *)
  o_data : list byte;         (* what can be read; bytesAvailable() is its length *)
  o_towrite : Z;              (* bytesToWrite() *)
  o_state : sockstate;        (* state() of a socket *)
  o_finished : bool;          (* isFinished() of a reply or thread *)
  o_running : bool;           (* isRunning() of a thread *)
  o_proc : procstate;         (* state() of a process *)
  o_listening : bool;         (* isListening() of a server *)
  o_pending : list nat;       (* pending connections of a server, oldest first *)
  o_active : bool;            (* isActive() of a timer *)
  o_wrapper : bool            (* not of Qt: does the QCoroXxx object returned by qCoro() still exist? *) }.

Definition set_data (x : list byte) (d : qobj) : qobj :=
  QObj (o_open d) (o_readable d) (o_writable d) x (o_towrite d) (o_state d) (o_finished d) (o_running d) (o_proc d) (o_listening d) (o_pending d) (o_active d) (o_wrapper d).
Definition set_pending (x : list nat) (d : qobj) : qobj :=
  QObj (o_open d) (o_readable d) (o_writable d) (o_data d) (o_towrite d) (o_state d) (o_finished d) (o_running d) (o_proc d) (o_listening d) x (o_active d) (o_wrapper d).

Inductive sig :=
  | ReadyRead | BytesWritten | AboutToClose          (* QIODevice *)
  | StateChanged | Connected | Disconnected | ErrorOccurred  (* sockets *)
  | Finished | Started                               (* reply, process, thread *)
  | NewConnection | Closed                           (* servers *)
  | Timeout | Pong.
#[global] Instance sig_eq_dec : EqDecision sig. Proof. solve_decision. Defined.

(** Arguments of signals (also of the helpers' ready signals). *)
Inductive arg :=
  | ANone
  | ABool (b : bool)
  | AInt (n : Z)
  | AState (st : sockstate)
  | AConn (c : option nat)     (* pointer to a connection's socket *)
  | APong (t : option Z).      (* round-trip time, if any *)

(** An idle, open, readable and writable device, for examples. *)
Definition device : qobj := QObj true true true [] 0 SConnected false false NotRunning false [] false true.
