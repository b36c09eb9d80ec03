(** * co_await qCoro(thread).waitForStarted() / waitForFinished() while the thread runs.

    Models /repo/qcoro/core/qcorothread.cpp:90-114 (QCoroThread::waitForStarted, waitForFinished), statement by statement: the QThread starts and finishes in between.
    QtNet.v has the same functions with the thread standing still meanwhile, and the rest (destruction of the object or the coroutine). qCoro(obj, signal, timeout),
    qcorosignal.h:109-119, 189-237, is one connection, made last by await_suspend(), whose slot is executed by the thread of the coroutine (queued), and a timer of that thread.
    No proofs in this file.

    The coroutine is arbitrary: it calls any of the functions at any time, any number of times, on a thread other than the QThread; the QThread is started, finishes and
    is started again at any time.

    Qt (trusted), QThread: start() makes isRunning() true, the new thread emits started(); when its run() returns, the thread makes isFinished() true and isRunning() false
    (QThreadPrivate::isInFinish), then emits finished(), then ends; start() waits for that. isRunning() and isFinished() are each atomic. An emission and a connection
    are each atomic (both lock the QObjects). *)
From stdpp Require Import list option.

Inductive kind := KStarted | KFinished.
Inductive qstate :=
  | QNew
  | QStarting   (* start() was called *)
  | QRunning    (* started() was emitted *)
  | QFinishing  (* isInFinish is set *)
  | QDone.      (* finished() was emitted *)
Definition is_running (q : qstate) : bool := match q with QStarting | QRunning => true | _ => false end.
Definition is_finished (q : qstate) : bool := match q with QFinishing | QDone => true | _ => false end.

Inductive hev :=
  (* of the coroutine *)
  | HCall (k : kind) (timeout : bool)  (* calls waitForStarted() or waitForFinished(), with a timeout or without *)
  | HRunning (b : bool)                (* isRunning() returns b *)
  | HFinished (b : bool)               (* isFinished() returns b *)
  | HConnected                         (* the connection is made, the coroutine is suspended *)
  | HTimeout                           (* the timer fires *)
  | HReturn (b : bool)
  (* of the thread *)
  | HStart                             (* start() is called *)
  | HSignal (k : kind)                 (* started() or finished() is emitted *)
  | HFinishing.                        (* run() has returned *)

(** Where the coroutine is: elsewhere; before its next check; before the connection; suspended, the queued call of its slot posted or not. *)
Inductive hpos := HElse | HFirst (k : kind) (t : bool) | HSecond (k : kind) (t : bool) | HConnect (k : kind) (t : bool) | HWait (k : kind) (t posted : bool).

Record hst := Hst { h_q : qstate; h_pos : hpos; h_tr : list hev }.
Definition threadwait0 : hst := Hst QNew HElse [].

Inductive hact := HACall (k : kind) (t : bool) | HAStep | HADeliver | HATimeout | HAStart | HAThread.

(** The emission of [k]. *)
Definition posts (k : kind) (p : hpos) : hpos :=
  match p, k with
  | HWait KStarted t _, KStarted => HWait KStarted t true
  | HWait KFinished t _, KFinished => HWait KFinished t true
  | _, _ => p
  end.

Definition hperform (a : hact) (s : hst) : option hst :=
  let q := h_q s in let tr := h_tr s in
  match a with
  | HACall k t => match h_pos s with HElse => Some (Hst q (HFirst k t) (HCall k t :: tr)) | _ => None end
  | HAStep => match h_pos s with
      (* :91-93 *)
      | HFirst KStarted t => Some (if is_running q then Hst q HElse (HReturn true :: HRunning true :: tr) else Hst q (HSecond KStarted t) (HRunning false :: tr))
      (* :94-96 *)
      | HSecond KStarted t => Some (if is_finished q then Hst q HElse (HReturn false :: HFinished true :: tr) else Hst q (HConnect KStarted t) (HFinished false :: tr))
      (* :103-105 *)
      | HFirst KFinished t => Some (if is_finished q then Hst q HElse (HReturn true :: HFinished true :: tr) else Hst q (HSecond KFinished t) (HFinished false :: tr))
      (* :106-108 *)
      | HSecond KFinished t => Some (if is_running q then Hst q (HConnect KFinished t) (HRunning true :: tr) else Hst q HElse (HReturn false :: HRunning false :: tr))
      (* :98, :110 *)
      | HConnect k t => Some (Hst q (HWait k t false) (HConnected :: tr))
      | _ => None
      end
  (* the slot, qcorosignal.h:216-234; :99, :111 *)
  | HADeliver => match h_pos s with HWait k t true => Some (Hst q HElse (HReturn true :: tr)) | _ => None end
  (* qcorosignal.h:114-117 *)
  | HATimeout => match h_pos s with HWait k true p => Some (Hst q HElse (HReturn false :: HTimeout :: tr)) | _ => None end
  | HAStart => match q with QNew | QDone => Some (Hst QStarting (h_pos s) (HStart :: tr)) | _ => None end
  | HAThread => match q with
      | QStarting => Some (Hst QRunning (posts KStarted (h_pos s)) (HSignal KStarted :: tr))
      | QRunning => Some (Hst QFinishing (h_pos s) (HFinishing :: tr))
      | QFinishing => Some (Hst QDone (posts KFinished (h_pos s)) (HSignal KFinished :: tr))
      | _ => None
      end
  end.

Inductive hreach : hst -> Prop :=
  | hreach_0 : hreach threadwait0
  | hreach_S s s' a : hreach s -> hperform a s = Some s' -> hreach s'.
Fixpoint hplay (l : list hact) (s : hst) : hst :=
  match l with [] => s | a :: l => match hperform a s with Some s' => hplay l s' | None => s end end.
