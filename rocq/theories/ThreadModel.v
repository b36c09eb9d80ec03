(** * co_await QCoro::moveToThread(thread).

    Models /repo/qcoro/core/qcorothread.cpp:15-79 (ContextHelper, ThreadContext, moveToThread), 90-100 (waitForStarted, in steps: other
    threads run in between). No proofs in this file.

    The coroutine is arbitrary: it moves between any threads (numbers), any number of times; the threads start, finish
    and are restarted at any time. A history is a sequence of the actions below; the actions of different threads interleave freely.

    Qt (trusted): QThread::isRunning() is true from start() on, started() is emitted later, by the thread itself; isFinished() is true
    once the thread has finished, until it is restarted; a thread that finishes keeps the events posted to its objects, and
    delivers them when it is restarted; events to a destroyed object are dropped. A queued connection is executed by the event loop of the
    thread where it was made. A thread does not finish while it executes the coroutine. Simplifications: deleting a
    ContextHelper in another thread than its own is taken to be atomic; Task is transparent (see the models of Task); memory effects between
    threads are not modelled. *)
From stdpp Require Import list option.

(** The state of a QThread. *)
Inductive tstate :=
  | TNew                 (* not started *)
  | TStarting            (* start() was called; isRunning() *)
  | TRunning             (* has emitted started(), and runs its event loop *)
  | TDone.

(** A suspended co_await moveToThread(t): where await_suspend(), qcorothread.cpp:67-74, or the continuation of waitForStarted() is. *)
Inductive phase :=
  | PCheckRunning        (* before isRunning(), :91 *)
  | PCheckFinished       (* before isFinished(), :94 *)
  | PConnect             (* before the connection to started(), :98 *)
  | PConnected           (* suspended; nothing emitted yet *)
  | PNotified            (* started() was emitted: the queued call to the thread of the coroutine is on its way *)
  | PPosted.             (* the event to the ContextHelper, which lives in the target thread, is posted, :71-72 *)

Inductive cpos :=
  | CRuns (a : nat)                        (* runs on thread [a] *)
  | CMoves (a t : nat) (p : phase)         (* was suspended on [a] in co_await moveToThread(t) *)
  | CGone (a t : nat) (p : phase)          (* ... and destroyed (its frame, with the ThreadContext) there *)
  | CCrash.                                (* undefined behaviour *)

Inductive tev :=
  | EMove (a t : nat)    (* on thread a: co_await moveToThread(t) *)
  | EStep                (* await_suspend() or its continuation goes on *)
  | EResumed (t : nat)   (* the coroutine continues, on thread t *)
  | EStart (t : nat) | EStarted (t : nat) | EFinish (t : nat)
  | EDestroyed
  | EUseAfterFree.

Record mst := Mst { m_thr : nat -> tstate; m_co : cpos; m_tr : list tev }.

Definition upd (t : nat) (x : tstate) (f : nat -> tstate) : nat -> tstate := λ n, if decide (n = t) then x else f n.
Definition live (x : tstate) : bool := match x with TRunning => true | _ => false end.

Inductive mact :=
  | MMove (t : nat)      (* the coroutine: co_await moveToThread(t) *)
  | MStep                (* the coroutine's thread goes on in await_suspend(), or executes the queued call *)
  | MDeliver             (* the target thread delivers the event *)
  | MDestroy
  | MStart (t : nat) | MStarted (t : nat) | MFinish (t : nat).

(** One step of await_suspend(). Does [a]'s event loop matter? Only for the queued call. *)
Definition mstep (s : mst) (a t : nat) (p : phase) : option phase :=
  match p with
  | PCheckRunning => Some (match m_thr s t with TStarting | TRunning => PPosted | _ => PCheckFinished end)
  | PCheckFinished => Some (match m_thr s t with TDone => PPosted | _ => PConnect end)
  | PConnect => Some PConnected
  | PConnected => None
  | PNotified => if live (m_thr s a) then Some PPosted else None
  | PPosted => None
  end.

Definition mperform (x : mact) (s : mst) : option mst :=
  match x with
  | MMove t => match m_co s with CRuns a => Some (Mst (m_thr s) (CMoves a t PCheckRunning) (EMove a t :: m_tr s)) | _ => None end
  | MStep =>
      match m_co s with
      | CMoves a t p => match mstep s a t p with Some p' => Some (Mst (m_thr s) (CMoves a t p') (EStep :: m_tr s)) | None => None end
      | CGone a t PNotified => (* the callback of then() dereferences the destroyed ThreadContext, qcorothread.cpp:70-73 *)
          if live (m_thr s a) then Some (Mst (m_thr s) CCrash (EUseAfterFree :: m_tr s)) else None
      | _ => None
      end
  | MDeliver =>
      match m_co s with
      | CMoves _ t PPosted => if live (m_thr s t) then Some (Mst (m_thr s) (CRuns t) (EResumed t :: m_tr s)) else None
      | _ => None
      end
  | MDestroy => (* not while await_suspend() runs *)
      match m_co s with
      | CMoves a t PConnected => Some (Mst (m_thr s) (CGone a t PConnected) (EDestroyed :: m_tr s))
      | CMoves a t PNotified => Some (Mst (m_thr s) (CGone a t PNotified) (EDestroyed :: m_tr s))
      | CMoves a t PPosted => Some (Mst (m_thr s) (CGone a t PPosted) (EDestroyed :: m_tr s))
      | _ => None
      end
  | MStart t =>
      match m_thr s t with
      | TNew | TDone => Some (Mst (upd t TStarting (m_thr s)) (m_co s) (EStart t :: m_tr s))
      | _ => None
      end
  | MStarted t =>
      match m_thr s t with
      | TStarting => Some (Mst (upd t TRunning (m_thr s))
          (match m_co s with
           | CMoves a t' PConnected => if decide (t' = t) then CMoves a t' PNotified else m_co s
           | CGone a t' PConnected => if decide (t' = t) then CGone a t' PNotified else m_co s
           | c => c end)
          (EStarted t :: m_tr s))
      | _ => None
      end
  | MFinish t =>
      match m_thr s t with
      | TRunning =>
          if match m_co s with
             | CRuns a | CMoves a _ PCheckRunning | CMoves a _ PCheckFinished | CMoves a _ PConnect => bool_decide (a = t)
             | _ => false end
          then None else Some (Mst (upd t TDone (m_thr s)) (m_co s) (EFinish t :: m_tr s))
      | _ => None
      end
  end.

(** The coroutine starts on a running thread, the others are in any state. *)
Inductive mreach (thr : nat -> tstate) (a : nat) : mst -> Prop :=
  | mreach_0 : thr a = TRunning -> mreach thr a (Mst thr (CRuns a) [])
  | mreach_S s s' x : mreach thr a s -> mperform x s = Some s' -> mreach thr a s'.

Inductive msteps : mst -> mst -> Prop :=
  | msteps_0 s : msteps s s
  | msteps_S s s' s'' x : msteps s s' -> mperform x s' = Some s'' -> msteps s s''.

Fixpoint mplay (l : list mact) (s : mst) : mst :=
  match l with [] => s | a :: l => match mperform a s with Some s' => mplay l s' | None => s end end.
