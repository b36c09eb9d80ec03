(** * waitFor() of a Task whose coroutine ends on another thread (as after co_await QCoro::moveToThread()).

    Models, step by step, for free interleaving of two threads: QCoro::waitFor() and runCoroutine(), /repo/qcoro/impl/waitfor.h:29-88. TaskModel.v is
    about waitFor() on one thread; what precedes, the co_await in runCoroutine() that is resumed by the other thread, is RaceModel.v. No proofs in this file.

    Qt (trusted), QEventLoop: exec() resets the exit flag, then processes events until the flag is set, sleeping when there is none; quit() sets the flag, then wakes the
    loop's thread, for which it reads the QEventLoop again; a wake-up that comes before the thread sleeps is not lost.
    Simplifications: steps are sequentially consistent (that coroutineFinished is not synchronised is not counted as undefined behaviour); nobody else quits the loop (see
    C116 for that); runCoroutine() suspends in its co_await, else there is no second thread. *)
From stdpp Require Import list option.

Section waitrace.
(** [V]: how the Task ends: its value or its exception. *)
Context {V : Type}.

(** The thread that called waitFor(). *)
Inductive wphase :=
  | WCalled   (* runCoroutine() has returned: it is suspended; waitfor.h:70, 80 are next *)
  | WChecked  (* context.coroutineFinished was false *)
  | WLooping  (* in exec(), after the exit flag was reset: about to look at it *)
  | WSleeping (* in exec(), waiting for events *)
  | WGone.    (* waitFor() has returned: [context] and [result] are destroyed *)
(** The thread on which the coroutine ends, and runCoroutine() with it. *)
Inductive ephase :=
  | EWaiting
  | EStored     (* result.emplace or context.exception = .., waitfor.h:47-50, 58-61 *)
  | EFinished   (* context.coroutineFinished = true *)
  | EQuitting   (* in context.loop.quit(): the exit flag is set *)
  | EDone.

Inductive wrev :=
  | NChecked            (* waitFor() found coroutineFinished false *)
  | NExec               (* exec() has reset the exit flag *)
  | NStored (v : V) | NFinished | NQuit | NWoken
  | NReturn (v : option V) (* waitFor() returns, or throws; None: no value and no exception *)
  | NUseAfterFree.

Record wrst := Wrst { wr_w : wphase; wr_e : ephase; wr_fin : bool; wr_exit : bool; wr_wake : bool; wr_out : option V; wr_bad : bool; wr_tr : list wrev }.
Definition waitrace0 : wrst := Wrst WCalled EWaiting false false false None false [].

Inductive wract :=
  | NACheck | NAExec | NALook | NAWake
  | NAEvent (* any other event of the waiting thread *)
  | NAStore (v : V) | NAFinish | NAQuit | NAInterrupt.

(** Access of the ending thread to [context] or [result]. *)
Definition uses (s f : wrst) : wrst :=
  match wr_w s with WGone => Wrst (wr_w s) (wr_e s) (wr_fin s) (wr_exit s) (wr_wake s) (wr_out s) true (NUseAfterFree :: wr_tr s) | _ => f end.
Definition returns (s : wrst) : wrst := Wrst WGone (wr_e s) (wr_fin s) (wr_exit s) (wr_wake s) (wr_out s) false (NReturn (wr_out s) :: wr_tr s).

Definition nperform (a : wract) (s : wrst) : option wrst :=
  if wr_bad s then None else
  match a with
  (* waitfor.h:71-73, 80-82 *)
  | NACheck => match wr_w s with
      | WCalled => Some (if wr_fin s then returns s else Wrst WChecked (wr_e s) (wr_fin s) (wr_exit s) (wr_wake s) (wr_out s) false (NChecked :: wr_tr s))
      | _ => None end
  | NAExec => match wr_w s with
      | WChecked => Some (Wrst WLooping (wr_e s) (wr_fin s) false (wr_wake s) (wr_out s) false (NExec :: wr_tr s))
      | _ => None end
  | NALook => match wr_w s with
      | WLooping => Some (if wr_exit s then returns s else Wrst WSleeping (wr_e s) (wr_fin s) (wr_exit s) (wr_wake s) (wr_out s) false (wr_tr s))
      | _ => None end
  | NAWake => match wr_w s, wr_wake s with
      | WSleeping, true => Some (Wrst WLooping (wr_e s) (wr_fin s) (wr_exit s) false (wr_out s) false (wr_tr s))
      | _, _ => None end
  | NAEvent => match wr_w s with
      | WSleeping => Some (Wrst WLooping (wr_e s) (wr_fin s) (wr_exit s) (wr_wake s) (wr_out s) false (wr_tr s))
      | _ => None end
  (* waitfor.h:46-52, 57-63 *)
  | NAStore v => match wr_e s with
      | EWaiting => Some (uses s (Wrst (wr_w s) EStored (wr_fin s) (wr_exit s) (wr_wake s) (Some v) false (NStored v :: wr_tr s)))
      | _ => None end
  | NAFinish => match wr_e s with
      | EStored => Some (uses s (Wrst (wr_w s) EFinished true (wr_exit s) (wr_wake s) (wr_out s) false (NFinished :: wr_tr s)))
      | _ => None end
  | NAQuit => match wr_e s with
      | EFinished => Some (uses s (Wrst (wr_w s) EQuitting (wr_fin s) true (wr_wake s) (wr_out s) false (NQuit :: wr_tr s)))
      | _ => None end
  | NAInterrupt => match wr_e s with
      | EQuitting => Some (uses s (Wrst (wr_w s) EDone (wr_fin s) (wr_exit s) true (wr_out s) false (NWoken :: wr_tr s)))
      | _ => None end
  end.

Inductive nreach : wrst -> Prop :=
  | nreach_0 : nreach waitrace0
  | nreach_S s s' a : nreach s -> nperform a s = Some s' -> nreach s'.
Fixpoint nplay (l : list wract) (s : wrst) : wrst :=
  match l with [] => s | a :: l => match nperform a s with Some s' => nplay l s' | None => s end end.
End waitrace.
Arguments wrst : clear implicits. Arguments wract : clear implicits. Arguments wrev : clear implicits.
