(** * QCoroIODevice and its virtual functions in the derived wrappers, as programs over the machine of QtModel.v.

    Continuation passing style: [f args k] is "k(co_await f(args))". No proofs in this file.
    Task is transparent: co_await of a member coroutine runs its body (see PropsTask.v). *)
From stdpp Require Import list.
From Coq Require Import ZArith.
From Verif Require Import QtModel QtWrap QtObj.

Section io.
Context {O A : Type}.
Notation wprog := (@wprog qobj sig arg O A).
Notation helper := (@helper qobj sig arg).

(** The wrapper classes derived from QCoroIODevice. *)
Inductive cls := IODevice | AbstractSocket | LocalSocket | NetworkReply.

Definition is_unconnected (a : arg) : bool := match a with AState Unconnected => true | _ => false end.
Definition is_closing (a : arg) : bool := match a with AState Unconnected | AState Closing => true | _ => false end.
Definition is_connected (a : arg) : bool := match a with AState SConnected => true | _ => false end.

(** The helper object of waitForReadyReadImpl().
    IODevice: WaitSignalHelper(device, readyRead), qcoroiodevice_p.cpp:9-13;
    AbstractSocket: AbstractSocketReadySignalHelper, qcoroabstractsocket.cpp:14-41;
    LocalSocket: LocalSocketReadySignalHelper, qcorolocalsocket.cpp:45-70;
    NetworkReply: ReplyWaitSignalHelper, qcoronetworkreply.cpp:13-36 (the connections to errorOccurred and finished are queued).
    emitReady() cuts the connections of WaitSignalHelper (qcoroiodevice_p.h:23-32), the sockets' stateChanged slot also its
    own, the reply's cleanup() all. *)
Definition ready_helper (c : cls) : helper := Helper
  (λ sg a d, match sg with
    | ReadyRead => Some (false, ABool true, None)
    | AboutToClose => Some (false, ABool false, None)
    | StateChanged => match c with
        | AbstractSocket => if is_closing a then Some (false, ABool false, None) else None
        | LocalSocket => if is_connected a then None else Some (false, ABool false, None)
        | _ => None end
    | ErrorOccurred => match c with NetworkReply => Some (true, ABool false, None) | _ => None end
    | Finished => match c with NetworkReply => Some (true, ABool true, None) | _ => None end
    | _ => None
    end)
  (λ from sg, match sg with
    | StateChanged => match from with StateChanged => false | _ => true end
    | _ => false
    end)
  (λ _, false).

(** The same of waitForBytesWrittenImpl(): qcoroiodevice_p.cpp:15-19, qcoroabstractsocket.cpp:24-30, qcorolocalsocket.cpp:53-57,
    qcoronetworkreply.cpp:21-25. *)
Definition written_helper (c : cls) : helper := Helper
  (λ sg a d, match sg with
    | BytesWritten => Some (false, a, None)
    | AboutToClose => Some (false, AInt 0, None)
    | StateChanged => match c with
        | AbstractSocket => if is_closing a then Some (false, AInt 0, None) else None
        | LocalSocket => if is_connected a then None else Some (false, AInt 0, None)
        | _ => None end
    | ErrorOccurred => match c with NetworkReply => Some (true, AInt 0, None) | _ => None end
    | Finished => match c with NetworkReply => Some (true, AInt 0, None) | _ => None end
    | _ => None
    end)
  (λ from sg, match sg with
    | StateChanged => match from with StateChanged => false | _ => true end
    | _ => false
    end)
  (λ _, false).

Definition sconnected (d : qobj) : bool := match o_state d with SConnected => true | _ => false end.

(** waitForReadyReadImpl(timeout): qcoroiodevice.cpp:132-135, qcoroabstractsocket.cpp:48-56, qcorolocalsocket.cpp:78-85,
    qcoronetworkreply.cpp:83-90. Yields std::optional<bool>. *)
Definition ready_impl (c : cls) (to : option nat) (k : option arg -> wprog) : wprog :=
  match c with
  | IODevice => qCoro_helper (ready_helper c) to k
  | AbstractSocket | LocalSocket => WGet (λ d, if sconnected d then qCoro_helper (ready_helper c) to k else k (Some (ABool false)))
  | NetworkReply => WGet (λ d, if o_finished d then k (Some (ABool true)) else qCoro_helper (ready_helper c) to k)
  end.

(** waitForBytesWrittenImpl(timeout): qcoroiodevice.cpp:137-140, qcoroabstractsocket.cpp:58-66, qcorolocalsocket.cpp:87-94,
    qcoronetworkreply.cpp:92-99 (co_return false: an std::optional<qint64> with value 0). *)
Definition written_impl (c : cls) (to : option nat) (k : option arg -> wprog) : wprog :=
  match c with
  | IODevice => qCoro_helper (written_helper c) to k
  | AbstractSocket | LocalSocket => WGet (λ d, if sconnected d then qCoro_helper (written_helper c) to k else k None)
  | NetworkReply => WGet (λ d, if o_finished d then k (Some (AInt 0)) else qCoro_helper (written_helper c) to k)
  end.

Definition avail (d : qobj) : bool := match o_data d with [] => false | _ => true end.
Definition has_value {X} (r : option X) : bool := match r with Some _ => true | None => false end.

(** waitForReadyRead(timeout): qcoroiodevice.cpp:104-114. *)
Definition waitForReadyRead (c : cls) (to : option nat) (k : bool -> wprog) : wprog :=
  WGet (λ d, if negb (o_readable d) then k false else if avail d then k true else ready_impl c to (λ r, k (has_value r))).

(** Which bytes the Qt function returns (QIODevice::readAll(), read(maxSize), readLine(maxSize; 0: no limit)); negative sizes
    are not modelled. *)
Inductive rkind := RAll | RMax (n : nat) | RLine (n : nat).
Definition newline : byte := 10.
Fixpoint upto_newline (l : list byte) : nat := match l with [] => 0 | b :: l => if b =? newline then 1 else S (upto_newline l) end.
Definition rlen (r : rkind) (l : list byte) : nat :=
  match r with
  | RAll => length l
  | RMax n => n `min` length l
  | RLine 0 => upto_newline l
  | RLine n => n `min` upto_newline l
  end.
(** QIODevice::readAll() etc. on the device. *)
Definition dev_read (r : rkind) (k : list byte -> wprog) : wprog :=
  WCall (λ d, (set_data (drop (rlen r (o_data d)) (o_data d)) d, [])) (λ d, k (take (rlen r (o_data d)) (o_data d))).

(** QCoroIODevice::readAll(timeout), read(maxSize, timeout), readLine(maxSize, timeout): qcoroiodevice.cpp:57-82. *)
Definition read (c : cls) (r : rkind) (to : option nat) (k : list byte -> wprog) : wprog :=
  waitForReadyRead c to (λ b, if b then dev_read r k else k []).

(** A coroutine that reads several times in turn, each with its own kind of read and timeout; the results in order. (Not
    code of QCoro, but the caller in C45.) *)
Fixpoint read_each (c : cls) (rs : list (rkind * option nat)) (acc : list (list byte)) (k : list (list byte) -> wprog) : wprog :=
  match rs with [] => k acc | (r, to) :: rs => read c r to (λ b, read_each c rs (acc ++ [b]) k) end.

(** waitForBytesWritten(timeout): qcoroiodevice.cpp:120-130. *)
Definition waitForBytesWritten (c : cls) (to : option nat) (k : option arg -> wprog) : wprog :=
  WGet (λ d, if negb (o_writable d) then k None else if (o_towrite d =? 0)%Z then k (Some (AInt 0)) else written_impl c to k).

(** The value of a qint64 (arguments of other types do not occur in the C++ program). *)
Definition int_of (a : arg) : Z := match a with AInt n => n | _ => 0%Z end.

(** The loop of QCoroIODevice::write(), qcoroiodevice.cpp:87-97. It is a member function: every iteration uses "this", i.e.
    the QCoroIODevice object. The two WAlive are steps without effect (needed for a productive definition). *)
CoFixpoint write_loop (c : cls) (total confirmed : Z) (k : Z -> wprog) : wprog :=
  WAlive (λ _, if (confirmed <? total)%Z then
      WGet (λ d, if o_wrapper d then
        waitForBytesWritten c None (λ r, match r with
          | Some a => write_loop c total (confirmed + int_of a) k
          | None => WAlive (λ _, k confirmed)
          end)
      else WBad)
    else k confirmed).

(** QCoroIODevice::write(buffer), qcoroiodevice.cpp:84-98. [wr d]: what QIODevice::write(buffer) returns in state [d] (the
    number of bytes accepted, -1 on error), the state after and the signals emitted meanwhile. *)
Definition write (c : cls) (wr : qobj -> Z * qobj * list (sig * arg)) (k : Z -> wprog) : wprog :=
  WCall (λ d, (snd (fst (wr d)), snd (wr d))) (λ d, write_loop c (fst (fst (wr d))) 0 k).

(** co_await device: ReadAllOperation, qcoroiodevice.cpp:15-51. *)
Definition read_or_close (sg : sig) (a : arg) : option arg := match sg with ReadyRead | AboutToClose => Some ANone | _ => None end.
Definition co_await_device (k : list byte -> wprog) : wprog :=
  WAlive (λ b, if b then WGet (λ d, if negb (o_open d) || negb (o_readable d) || avail d then dev_read RAll k
                                    else WAwait MShot (FromDev read_or_close) None (λ _, dev_read RAll k))
               else dev_read RAll k).
End io.
